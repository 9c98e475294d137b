(** Simultaneous substitution: add_to_subs, b_substitute and do_substitute of
    /repo/src/bin/fl/new_bdd.c. *)
From stdpp Require Import gmap strings list.
From Coq Require Import NArith Lia.
From Verif Require Import BddModel BddWf BddOps BddVar BddDen BddQuant.
Open Scope N_scope.
Local Arguments N.mul : simpl never.
Local Arguments N.add : simpl never.

(** ** Model *)

(** A substitution list: variable formula and replacement. *)
Notation subst := (list (prod fml fml)).

(** BDD_GET_VAR(GET_BDDP(f)); the constant's node has no variable. *)
Definition top_var (f : fml) : M N := fun s => (let* n := get_node f in ret n.1.1) s.

(** new_bdd.c 3664-3712 (add_to_subs): insertion keeping the list in variable
    order.  [None] inside is the fl-level error raised by Rprintf. *)
Fixpoint insert_sub (s : bst) (v e : fml) (i : N) (start : subst) : option (option subst) :=
  match start with
  | [] => Some (Some [(v, e)])
  | (w, x) :: rest =>
    match nodes s !! w.2 with
    | None => None
    | Some n =>
      if decide (ORDER s i < ORDER s n.1.1) then Some (Some ((v, e) :: start)) else
      if decide (i = n.1.1) then Some None else
      match insert_sub s v e i rest with
      | Some (Some l) => Some (Some ((w, x) :: l))
      | o => o
      end
    end
  end.
Definition add_to_subs (start : subst) (v e : fml) : M (option subst) := fun s =>
  if decide (v = ONE \/ v = ZERO) then Some (None, s) else
  match nodes s !! v.2 with
  | None => None
  | Some (i, l, r) =>
    if decide (l.2 <> 0 \/ r.2 <> 0) then Some (None, s) else
    match insert_sub s v e i start with
    | None => None
    | Some o => Some (o, s)
    end
  end.

(** subs_tbl: keyed on the formula and the pointer to a suffix of the list; a
    suffix is identified by its length. *)
Notation scache := (gmap (prod fml nat) fml).

(** POS(f) == ZERO || ORDER(f2var(f)) > ORDER(v) *)
Definition below (s : bst) (v : N) (f : fml) : bool :=
  bool_decide (f.2 = 0) ||
  match nodes s !! f.2 with Some n => bool_decide (ORDER s v < ORDER s n.1.1) | None => false end.

(** new_bdd.c 3714-3785 (b_substitute). *)
Fixpoint b_subst_rec (fuel : nat) (f : fml) (subs : subst) (sc : scache) : M (fml * scache) := fun s =>
  match fuel with
  | O => None
  | S fuel =>
    if decide (f.2 = 0) then Some ((f, sc), s) else
    match subs with
    | [] => Some ((f, sc), s)
    | (sv, expr) :: next =>
      match sc !! (f, length subs) with
      | Some r => Some ((r, sc), s)
      | None =>
        (let* svar := top_var sv in
         let* n := get_node f in
         let fv := n.1.1 in
         let* rr :=
           (if decide (ORDER s svar < ORDER s fv) then b_subst_rec fuel f next sc
            else if decide (ORDER s fv < ORDER s svar) then
              let* varf := find_insert fv ONE ZERO in
              let* r1 := b_subst_rec fuel (lsonc f n) subs sc in
              let* r2 := b_subst_rec fuel (rsonc f n) subs r1.2 in
              let* r := (fun s' =>
                (if below s' fv r1.1 && below s' fv r2.1 then find_insert fv r1.1 r2.1
                 else let* a := B_And r1.1 varf in
                      let* b := B_And r2.1 (bnot varf) in
                      B_Or a b) s') in
              ret (r, r2.2)
            else
              let* r1 := b_subst_rec fuel (lsonc f n) next sc in
              let* a := B_And r1.1 expr in
              let* r2 := b_subst_rec fuel (rsonc f n) next r1.2 in
              let* b := B_And r2.1 (bnot expr) in
              let* r := B_Or a b in
              ret (r, r2.2)) in
         ret (rr.1, <[(f, length subs) := rr.1]> rr.2)) s
      end
    end
  end.
Definition b_substitute (f : fml) (subs : subst) (sc : scache) : M (fml * scache) := fun s =>
  b_subst_rec (S (length (ord s) + length subs)) f subs sc s.

(** new_bdd.c 1676-1705 (do_substitute).  [prs] are the (name, expression) pairs,
    [fs] the Boolean leaves of the second argument in the order Gen_map meets them. *)
Fixpoint build_subs (prs : list (string * fml)) (acc : subst) : M (option subst) :=
  match prs with
  | [] => ret (Some acc)
  | (x, e) :: prs =>
    let* v := B_Var x in
    let* o := add_to_subs acc v e in
    match o with
    | None => ret None
    | Some acc => build_subs prs acc
    end
  end.
Fixpoint map_subst (fs : list fml) (subs : subst) (sc : scache) : M (list fml) :=
  match fs with
  | [] => ret []
  | f :: fs =>
    let* r := b_substitute f subs sc in
    let* rs := map_subst fs subs r.2 in
    ret (r.1 :: rs)
  end.
Definition do_substitute (prs : list (string * fml)) (fs : list fml) : M (option (list fml)) :=
  let* o := build_subs prs [] in
  match o with
  | None => ret None
  | Some subs => let* rs := map_subst fs subs ∅ in ret (Some rs)
  end.

(** ** Substitution lists in variable order *)
Notation isub := (list (prod N fml)).
(** [f] is variable [v] *)
Definition is_var (s : bst) (f : fml) (v : N) : Prop :=
  v < nvars s /\ nodes s !! f.2 = Some (v, ZERO, ONE) /\ f.1 = true.

Fixpoint senv (s : bst) (e : env) (su : isub) : env :=
  match su with
  | [] => e
  | (v, x) :: su => upd (senv s e su) v (sem s e x)
  end.
Fixpoint sorted (s : bst) (su : isub) : Prop :=
  match su with
  | [] => True
  | (v, x) :: su => v < nvars s /\ live s x /\
      (forall w y, (w, y) ∈ su -> ORDER s v < ORDER s w) /\ sorted s su
  end.
Definition rep (s : bst) (subs : subst) (su : isub) : Prop :=
  Forall2 (fun p q => is_var s p.1 q.1 /\ p.2 = q.2) subs su.

Lemma var_node s f v : WFn s -> v < nvars s -> live s f -> (forall e, sem s e f = e v) -> is_var s f v.
Proof.
  intros W Hv L H. unfold is_var. destruct f as [n i].
  destruct (live_cases _ _ L) as [E|(w&l&r&E)]; cbn [fst snd] in E.
  { subst. pose proof (H (fun _ => true)) as H1. pose proof (H (fun _ => false)) as H2.
    rewrite sem_const in H1, H2. congruence. }
  pose proof (wf_node _ W _ _ _ _ E) as (Hw&Hl&Hne&Ll&Lr&Ol&Or&_).
  assert (w = v) as ->.
  { assert (dep (fun e => sem s e (n, i)) w) as [e He].
    { apply (dep_node s n i w l r W E). by left. }
    rewrite !H in He. destruct (decide (v = w)); [done|]. by rewrite !upd_ne in He. }
  assert (n = true) as ->.
  { pose proof (sem_alltrue s W _ L) as Ht. by rewrite H in Ht. }
  assert (l = ZERO) as ->.
  { apply (canonical s W); [done|apply live_const|]. intros e.
    destruct (sem_cof s e true i v l r W E) as [C _]. rewrite H, upd_eq in C.
    rewrite sem_ZERO. by destruct (sem s e l). }
  assert (r = ONE) as ->.
  { apply (canonical s W); [done|apply live_const|]. intros e.
    destruct (sem_cof s e true i v ZERO r W E) as [_ C]. rewrite H, upd_eq in C.
    rewrite sem_ONE. by destruct (sem s e r). }
  done.
Qed.
Lemma is_var_sem s f v e : WFn s -> is_var s f v -> sem s e f = e v.
Proof.
  intros W (Hv&E&Hn). destruct f as [n i]. cbn in E, Hn. subst.
  rewrite (sem_node _ _ _ _ _ _ _ W E), sem_ZERO, sem_ONE. by destruct (e v).
Qed.

Lemma is_var_ext s s' f v : ext s s' -> is_var s f v -> is_var s' f v.
Proof.
  intros X (Hv&E&Hn). split_and!; [|by eapply lookup_weaken; [|apply X]|done].
  pose proof (ext_nvars _ _ X). lia.
Qed.
Lemma rep_ext s s' subs su : ext s s' -> rep s subs su -> rep s' subs su.
Proof. intros X H. eapply Forall2_impl; [done|]. intros p q [? ?]. split; [by eapply is_var_ext|done]. Qed.
Lemma sorted_ext s s' su : ext s s' -> sorted s su -> sorted s' su.
Proof.
  intros X. induction su as [|[v x] su IH]; [done|]. cbn. intros (Hv&Lx&Ho&Hs).
  assert (forall w y, (w, y) ∈ su -> w < nvars s) as Hw.
  { clear -Hs. induction su as [|[w' y'] su IH]; [by intros ? ? ?%elem_of_nil|].
    cbn in Hs. destruct Hs as (?&?&?&?). intros w y [[= -> ->]|?]%elem_of_cons; [done|by eapply IH]. }
  split_and!; [pose proof (ext_nvars _ _ X); lia|by eapply ext_live| |auto].
  intros w y Hin. rewrite !(ext_ORDER s s') by (try done; by eapply Hw). by eapply Ho.
Qed.
Lemma sorted_lt s su w y : sorted s su -> (w, y) ∈ su -> w < nvars s.
Proof.
  induction su as [|[v x] su IH]; [by intros ? ?%elem_of_nil|]. cbn. intros (?&?&?&?).
  intros [[= -> ->]|?]%elem_of_cons; [done|auto].
Qed.

Lemma senv_notin s e su v : (forall y, (v, y) ∉ su) -> senv s e su v = e v.
Proof.
  induction su as [|[w x] su IH]; intros H; [done|]. cbn. rewrite upd_ne.
  - apply IH. intros y Hy. apply (H y). by right.
  - intros ->. apply (H x). left.
Qed.
Lemma senv_sem_ext s s' su : WFn s -> WFn s' -> ext s s' -> sorted s su ->
  forall e v, senv s' e su v = senv s e su v.
Proof.
  intros W W' X. induction su as [|[w x] su IH]; [done|]. cbn. intros (?&?&?&?) e v.
  unfold upd. case_decide; [by apply ext_sem|auto].
Qed.

(** ** b_substitute *)
Definition sc_ok (s : bst) (su : isub) (sc : scache) : Prop :=
  forall f k r, sc !! (f, k) = Some r -> live s f /\ live s r /\ exists l1 l2,
    su = l1 ++ l2 /\ length l2 = k /\ forall e, sem s e r = sem s (senv s e l2) f.

Lemma sc_ok_pext s s' su sc : WFn s -> WFn s' -> pext s s' -> sorted s su -> sc_ok s su sc -> sc_ok s' su sc.
Proof.
  intros W W' P Hso H f k r E. destruct (H _ _ _ E) as (Lf&Lr&l1&l2&->&Hk&Hs).
  split; [plive|]. split; [plive|]. exists l1, l2. split; [done|]. split; [done|].
  intros e. rewrite !(pext_sem s s') by done. rewrite Hs. apply sem_env_eq; [done|done|].
  intros v. symmetry. apply senv_sem_ext; try done; [by apply pext_ext|].
  clear -Hso. induction l1 as [|[w x] l1 IH]; [done|]. apply IH. by destruct Hso as (_&_&_&?).
Qed.

Lemma sorted_suffix s l1 l2 : sorted s (l1 ++ l2) -> sorted s l2.
Proof. induction l1 as [|[w x] l1 IH]; [done|]. intros (_&_&_&H). auto. Qed.

Lemma below_spec s v f : WFn s -> v < nvars s -> live s f -> below s v f = true <-> ORDER s v < lvl s f.
Proof.
  intros W Hv L. unfold below, lvl. destruct (live_cases _ _ L) as [E|(w&l&r&E)].
  - rewrite E, (wf_zero _ W). cbn. pose proof (ORDER_lt_nvars _ _ W Hv). done.
  - rewrite E. cbn [fst snd]. rewrite bool_decide_eq_false_2.
    + cbn. by rewrite bool_decide_eq_true.
    + intros E0. rewrite E0, (wf_zero _ W) in E. done.
Qed.

Ltac scp := cbn [fst snd]; match goal with P : pext ?s ?s', H : sc_ok ?s _ _ |- sc_ok ?s' _ _ =>
  apply (sc_ok_pext s s'); done end.

Lemma b_subst_rec_spec su0 fuel : forall s f subs su sc l0, WF s -> live s f -> rep s subs su ->
  su0 = l0 ++ su -> sorted s su0 -> sc_ok s su0 sc ->
  (N.to_nat (nvars s - lvl s f) + length subs < fuel)%nat ->
  spec (b_subst_rec fuel f subs sc) s (fun p s' => live s' p.1 /\ sc_ok s' su0 p.2 /\
    forall e, sem s' e p.1 = sem s (senv s e su) f).
Proof.
  induction fuel as [|fuel IH]; intros s f subs su sc l0 W Lf Hrep Hl0 Hso Hsc Hfuel; [lia|].
  unfold spec. cbn [b_subst_rec].
  destruct (decide (f.2 = 0)) as [Hf|Hf].
  { apply (spec_ret (f, sc) s); [done|]. split_and!; try done. intros e. destruct f as [b ?].
    cbn in Hf. subst. cbn [fst]. by rewrite !sem_const. }
  destruct subs as [|[sv expr] next].
  { inversion Hrep; subst. by apply (spec_ret (f, sc) s). }
  destruct su as [|[v x] su]; [by inversion Hrep|].
  apply Forall2_cons in Hrep as [[Hvar Hx] Hrep]. cbn [fst snd] in Hvar, Hx. subst x.
  pose proof Hso as Hso'. rewrite Hl0 in Hso'. apply sorted_suffix in Hso'.
  destruct Hso' as (Hv&Lx&Hord&Hso').
  assert (Hlen : length next = length su) by (by eapply Forall2_length).
  destruct (sc !! (f, length ((sv, expr) :: next))) as [r|] eqn:Ec.
  { apply (spec_ret (r, sc) s); [done|]. destruct (Hsc _ _ _ Ec) as (_&Lr&l1&l2&Hsu&Hk&Hs).
    split_and!; try done. intros e. cbn [fst]. rewrite Hs.
    assert (l2 = (v, expr) :: su) as ->; [|done].
    rewrite Hl0 in Hsu. symmetry in Hsu. apply app_inj_2 in Hsu as [_ ?]; [done|]. rewrite Hk. cbn. lia. }
  destruct (live_cases _ _ Lf) as [?|(fv&l&r&E)]; [done|].
  unfold bind at 1, top_var at 1, bind at 1, get_node at 1. destruct Hvar as (_&Evar&Hsv1). rewrite Evar.
  unfold ret at 1. cbn [fst snd].
  unfold bind at 1, get_node at 1. rewrite E. cbn [fst snd].
  pose proof (wf_node _ W _ _ _ _ E) as (Hfv&_).
  destruct (live_lsonc s f fv l r W E) as [Lls Lrs].
  destruct (lvl_sonsc s f fv l r W E) as (Olf&Ols&Ors).
  pose proof (fun e => sem_sonsc s f fv l r e W E) as Hsf.
  set (ls := lsonc f (fv, l, r)) in *. set (rs := rsonc f (fv, l, r)) in *.
  pose proof (ORDER_lt_nvars _ _ W Hfv). pose proof (lvl_le s ls W). pose proof (lvl_le s rs W).
  cbn [length] in Hfuel.
  assert (Hend : forall rr s', WF s' -> pext s s' -> live s' rr.1 -> sc_ok s' su0 rr.2 ->
    (forall e, sem s' e rr.1 = sem s (senv s e ((v, expr) :: su)) f) ->
    spec (ret (rr.1, <[(f, length ((sv, expr) :: next)) := rr.1]> rr.2)) s' (fun p s' =>
      live s' p.1 /\ sc_ok s' su0 p.2 /\ forall e, sem s' e p.1 = sem s (senv s e ((v, expr) :: su)) f)).
  { intros rr s' W' P' L' Hc' S'. apply spec_ret; [done|]. split; [done|]. split; [|done].
    intros f' k' r'. destruct (decide ((f', k') = (f, length ((sv, expr) :: next)))) as [[= -> ->]|Hne].
    - cbn [snd]. rewrite lookup_insert. intros [= <-]. split; [plive|]. split; [done|].
      exists l0, ((v, expr) :: su). split; [done|]. split; [cbn; lia|].
      intros e. rewrite S'. rewrite (pext_sem s s') by done. apply sem_env_eq; [done|done|].
      intros w. symmetry. apply senv_sem_ext; try done. by apply pext_ext.
    - cbn [snd]. rewrite lookup_insert_ne by done. apply Hc'. }
  assert (HsX : forall s', WF s' -> pext s s' -> forall su' l', su0 = l' ++ su' -> forall e w,
    senv s' e su' w = senv s e su' w).
  { intros s' W' P' su' l' Hs' e w. apply senv_sem_ext; try done; [by apply pext_ext|].
    rewrite Hs' in Hso. by apply sorted_suffix in Hso. }
  assert (Hl0' : su0 = (l0 ++ [(v, expr)]) ++ su) by (by rewrite <- app_assoc).
  match goal with |- exists r s', ?m s = _ /\ _ => change (spec m s (fun p s' => live s' p.1 /\ sc_ok s' su0 p.2 /\
    forall e, sem s' e p.1 = sem s (senv s e ((v, expr) :: su)) f)) end.
  apply spec_bind.
  destruct (decide (ORDER s v < ORDER s fv)) as [Hlt|Hlt].
  { eapply spec_weaken; [apply (IH s f next su sc _ W Lf Hrep Hl0' Hso Hsc); lia|].
    intros rr s1 W1 P1 (L1&C1&S1) _ _. apply Hend; try done.
    intros e. rewrite S1. cbn. rewrite sem_upd_above; try done. lia. }
  destruct (decide (ORDER s fv < ORDER s v)) as [Hgt|Hgt].
  { assert (lvl s ONE = nvars s /\ lvl s ZERO = nvars s) as [HL1 HL2].
    { unfold lvl. cbn. by rewrite (wf_zero _ W). }
    apply spec_bind. eapply spec_weaken.
    { apply (find_insert_spec fv ONE ZERO s); try done; try apply live_const; lia. }
    intros varf s1 W1 P1 [Lvf Svf] _ _.
    apply spec_bind. eapply spec_weaken.
    { apply (IH s1 ls ((sv, expr) :: next) ((v, expr) :: su) sc l0); try done; try plive; try scp.
      - eapply rep_ext; [by apply pext_ext|]. apply Forall2_cons. done.
      - eapply sorted_ext; [by apply pext_ext|done].
      - rewrite (pext_lvl s s1), (pext_nvars _ _ P1) by done. cbn [length]. lia. }
    intros r1 s2 W2 P2 (L2&C2&S2) _ _. pose proof (pext_trans _ _ _ P1 P2) as P12.
    apply spec_bind. eapply spec_weaken.
    { apply (IH s2 rs ((sv, expr) :: next) ((v, expr) :: su) r1.2 l0); try done; try plive.
      - eapply rep_ext; [apply pext_ext, P12|]. apply Forall2_cons. done.
      - eapply sorted_ext; [apply pext_ext, P12|done].
      - rewrite (pext_lvl s s2), (pext_nvars _ _ P12) by done. cbn [length]. lia. }
    intros r2 s3 W3 P3 (L3&C3&S3) _ _. pose proof (pext_trans _ _ _ P12 P3) as P13.
    assert (S2' : forall e, sem s3 e r1.1 = sem s (senv s e ((v, expr) :: su)) ls).
    { intros e. rewrite (pext_sem s2 s3) by done. rewrite S2, (pext_sem s s1) by done.
      apply sem_env_eq; try done. intros w. by apply (HsX s1 W1 P1 _ l0). }
    assert (S3' : forall e, sem s3 e r2.1 = sem s (senv s e ((v, expr) :: su)) rs).
    { intros e. rewrite S3, (pext_sem s s2) by done.
      apply sem_env_eq; try done. intros w. by apply (HsX s2 W2 P12 _ l0). }
    assert (Hfin : forall e, senv s e ((v, expr) :: su) fv = e fv).
    { intros e. apply senv_notin. intros y [[= -> ->]|Hy]%elem_of_cons; [lia|].
      apply Hord in Hy. lia. }
    assert (Hfin2 : forall e, sem s (senv s e ((v, expr) :: su)) f =
      if e fv then sem s3 e r1.1 else sem s3 e r2.1).
    { intros e. rewrite Hsf, Hfin, S2', S3'. done. }
    pose proof (fun e => pext_sem s1 s3 varf e W1 W3 (pext_trans _ _ _ P2 P3) Lvf) as Svf3.
    apply spec_bind.
    assert (spec (fun s' => (if below s' fv r1.1 && below s' fv r2.1 then find_insert fv r1.1 r2.1
                 else let* a := B_And r1.1 varf in
                      let* b := B_And r2.1 (bnot varf) in
                      B_Or a b) s') s3 (fun r' s' => live s' r' /\ forall e,
                      sem s' e r' = if e fv then sem s3 e r1.1 else sem s3 e r2.1)) as Hsp.
    { unfold spec. destruct (below s3 fv r1.1 && below s3 fv r2.1) eqn:Eb.
      - apply andb_true_iff in Eb as [Eb1 Eb2].
        assert (fv < nvars s3) by (by rewrite (pext_nvars _ _ P13)).
        rewrite below_spec in Eb1 by (try done; plive). rewrite below_spec in Eb2 by done.
        apply find_insert_spec; try done; plive.
      - apply spec_bind. eapply spec_weaken; [apply B_And_spec; [done|plive|plive]|].
        intros a s4 W4 P4 [La Sa] _ _.
        apply spec_bind. eapply spec_weaken; [apply B_And_spec; [done|plive|plive]|].
        intros b s5 W5 P5 [Lb Sb] _ _.
        eapply spec_weaken; [apply B_Or_spec; [done|plive|plive]|].
        intros c s6 W6 P6 [Lc Sc]. split; [done|]. intros e. rewrite Sc, Sb.
        rewrite (pext_sem s4 s5) by done. rewrite Sa, sem_bnot by (try done; plive).
        rewrite (pext_sem s3 s4 varf) by (try done; plive).
        rewrite (pext_sem s3 s4 r2.1) by done.
        rewrite !Svf3, Svf, sem_ONE, sem_ZERO.
        by destruct (e fv), (sem s3 e r1.1), (sem s3 e r2.1). }
    eapply spec_weaken; [exact Hsp|]. intros r' s4 W4 P4 [L4 S4] _ _.
    apply spec_ret; [done|]. intros _ _. apply Hend; try done; cbn [fst snd].
    - by eapply pext_trans.
    - eapply sc_ok_pext; [| |exact P4| |done]; try done. eapply sorted_ext; [apply pext_ext, P13|done].
    - intros e. by rewrite S4, Hfin2. }
  assert (fv = v) as -> by (apply (wf_ord_inj _ W); try done; lia).
  apply spec_bind. eapply spec_weaken; [apply (IH s ls next su sc _ W Lls Hrep Hl0' Hso Hsc); lia|].
  intros r1 s1 W1 P1 (L1&C1&S1) _ _.
  apply spec_bind. eapply spec_weaken; [apply B_And_spec; [done|plive|plive]|].
  intros a s2 W2 P2 [La Sa] _ _. pose proof (pext_trans _ _ _ P1 P2) as P12.
  apply spec_bind. eapply spec_weaken.
  { apply (IH s2 rs next su r1.2 (l0 ++ [(v, expr)])); try done; try plive.
    - eapply rep_ext; [apply pext_ext, P12|done].
    - eapply sorted_ext; [apply pext_ext, P12|done].
    - eapply sc_ok_pext; [| |exact P2| |done]; try done. eapply sorted_ext; [apply pext_ext, P1|done].
    - rewrite (pext_lvl s s2), (pext_nvars _ _ P12) by done. lia. }
  intros r2 s3 W3 P3 (L3&C3&S3) _ _. pose proof (pext_trans _ _ _ P12 P3) as P13.
  apply spec_bind. eapply spec_weaken; [apply B_And_spec; [done|plive|plive]|].
  intros b s4 W4 P4 [Lb Sb] _ _.
  apply spec_bind. eapply spec_weaken; [apply B_Or_spec; [done|plive|plive]|].
  intros c s5 W5 P5 [Lc Sc] _ _. apply spec_ret; [done|]. intros _ _.
  pose proof (pext_trans _ _ _ P13 P4) as P14. pose proof (pext_trans _ _ _ P14 P5) as P15.
  apply Hend; try done; cbn [fst snd].
  - eapply sc_ok_pext; [| |exact (pext_trans _ _ _ P4 P5)| |done]; try done.
    eapply sorted_ext; [apply pext_ext, P13|done].
  - intros e. rewrite Sc, Sb. rewrite (pext_sem s2 s4 a) by (try done; by eapply pext_trans).
    rewrite Sa, S1. rewrite (pext_sem s s1 expr) by done.
    rewrite (sem_bnot s3) by (try done; plive). rewrite (pext_sem s s3 expr) by done.
    rewrite S3, (pext_sem s s2 rs) by done.
    rewrite (sem_env_eq s (senv s2 e su) (senv s e su) rs) by (try done; intros; by apply (HsX s2 W2 P12 su _ Hl0')).
    cbn [senv]. rewrite Hsf, upd_eq.
    rewrite (sem_upd_above s v _ W Hv ls Lls Ols), (sem_upd_above s v _ W Hv rs Lrs Ors).
    by destruct (sem s e expr), (sem s (senv s e su) ls), (sem s (senv s e su) rs).
Qed.

(** ** Building the list *)
Lemma insert_sub_spec s v e i : WF s -> is_var s v i -> live s e -> forall subs su,
  rep s subs su -> sorted s su ->
  (exists subs' su', insert_sub s v e i subs = Some (Some subs') /\ rep s subs' su' /\
     sorted s su' /\ su' ≡ₚ (i, e) :: su) \/
  (insert_sub s v e i subs = Some None /\ exists y, (i, y) ∈ su).
Proof.
  intros W Hv Le. induction subs as [|[w x] subs IH]; intros su Hrep Hso.
  { inversion Hrep; subst. left. exists [(v, e)], [(i, e)]. split_and!; try done.
    - apply Forall2_cons. split; [done|by apply Forall2_nil].
    - cbn. split_and!; try done; [apply Hv|]. by intros ? ? ?%elem_of_nil. }
  destruct su as [|[j y] su]; [by inversion Hrep|].
  apply Forall2_cons in Hrep as [[Hw Hx] Hrep]. cbn [fst snd] in Hw, Hx. subst y.
  cbn [insert_sub]. destruct Hw as (Hj&Ew&Hw1). rewrite Ew. cbn [fst snd].
  destruct Hso as (Hj'&Lx&Hord&Hso).
  destruct (decide (ORDER s i < ORDER s j)) as [Hlt|Hlt].
  { left. exists ((v, e) :: (w, x) :: subs), ((i, e) :: (j, x) :: su). split_and!; try done.
    - by repeat (apply Forall2_cons; split).
    - destruct Hv as (?&?&?). cbn. split_and!; try done.
      intros w' y' [[= -> ->]|Hin]%elem_of_cons; [done|]. apply Hord in Hin. lia. }
  destruct (decide (i = j)) as [->|Hne].
  { right. split; [done|]. exists x. left. }
  destruct (IH su Hrep Hso) as [(subs'&su'&->&Hrep'&Hso'&Hperm)|[-> [y Hy]]].
  - left. exists ((w, x) :: subs'), ((j, x) :: su'). split_and!; try done.
    + by apply Forall2_cons.
    + cbn. split_and!; try done. intros w' y'. rewrite Hperm.
      intros [[= -> ->]|Hin]%elem_of_cons; [|by eapply Hord].
      assert (ORDER s i <> ORDER s j).
      { intros Heq. apply Hne. apply (wf_ord_inj _ W); try done. apply Hv. }
      lia.
    + rewrite Hperm. apply perm_swap.
  - right. split; [done|]. exists y. by right.
Qed.

(** The list [su] stands for the pairs [prs] (in some order). *)
Definition matches (s : bst) (su : isub) (prs : list (string * fml)) : Prop :=
  exists l, l ≡ₚ prs /\
    Forall2 (fun p q => vnames s !! N.to_nat p.1 = Some q.1 /\ p.2 = q.2) su l.

Lemma matches_ext s s' su prs : ext s s' -> matches s su prs -> matches s' su prs.
Proof.
  intros (_&_&[k Hk]&_) (l&Hp&H). exists l. split; [done|]. eapply Forall2_impl; [done|].
  intros p q [H1 H2]. split; [|done]. rewrite Hk. by apply lookup_app_l_Some.
Qed.

Lemma build_subs_spec prs : forall s acc su done, WF s -> Forall (fun p => live s p.2) prs ->
  rep s acc su -> sorted s su -> matches s su done ->
  espec (build_subs prs acc) s (fun o s' =>
    match o with
    | Some subs => exists su, rep s' subs su /\ sorted s' su /\ matches s' su (prs ++ done)
    | None => ~ NoDup ((prs ++ done).*1)
    end).
Proof.
  induction prs as [|[x e] prs IH]; intros s acc su dn W HL Hrep Hso Hm.
  { apply espec_ret; [done|]. eauto. }
  apply Forall_cons in HL as [Le HL]. cbn [snd] in Le. cbn [build_subs].
  apply espec_bind. eapply espec_weaken; [by apply vspec_espec, B_Var_spec|].
  intros v s1 W1 X1 (Lv&i&Hi&Hn&Hsem) _ _.
  pose proof (var_node s1 v i W1 Hi Lv Hsem) as Hvar.
  apply (rep_ext s s1) in Hrep; [|done]. apply (sorted_ext s s1) in Hso; [|done].
  apply (matches_ext s s1) in Hm; [|done].
  apply (ext_live s s1) in Le; [|done].
  apply espec_bind. unfold espec at 1, add_to_subs.
  destruct Hvar as (Hi'&Ei&Hv1).
  rewrite decide_False.
  2:{ intros [->| ->]; [|done]. cbn in Ei. by rewrite (wf_zero _ W1) in Ei. }
  rewrite Ei. rewrite decide_False by (cbn; by intros [?|?]).
  destruct (insert_sub_spec s1 v e i W1 (conj Hi' (conj Ei Hv1)) Le acc su Hrep Hso)
    as [(subs'&su'&->&Hrep'&Hso'&Hperm)|[-> [y Hy]]].
  - eexists _, s1. split; [done|]. split; [done|]. split; [apply ext_refl|]. intros _ _.
    assert (matches s1 su' ((x, e) :: dn)) as Hm'.
    { destruct Hm as (l&Hp&HF).
      assert (Forall2 (fun p q => vnames s1 !! N.to_nat p.1 = Some q.1 /\ p.2 = q.2)
        ((i, e) :: su) ((x, e) :: l)) as HF' by (by apply Forall2_cons).
      destruct (Permutation_Forall2 (Permutation_sym Hperm) HF') as (l'&Hl'&HF'').
      exists l'. split; [|done]. rewrite <- Hl'. by rewrite Hp. }
    eapply espec_weaken.
    { apply (IH s1 subs' su' ((x, e) :: dn)); try done.
      eapply Forall_impl; [done|]. intros [? ?] ?. by eapply ext_live. }
    intros o s2 W2 X2. destruct o as [subs''|].
    + intros (su''&?&?&Hm''). exists su''. split_and!; try done.
      destruct Hm'' as (l&Hp&HF). exists l. split; [|done]. rewrite Hp. cbn.
      by rewrite <- Permutation_middle.
    + intros Hnd Hnd'. apply Hnd. rewrite <- Permutation_middle. done.
  - eexists _, s1. split; [done|]. split; [done|]. split; [apply ext_refl|]. intros _ _.
    apply espec_ret; [done|]. cbn. intros [Hnin _]%NoDup_cons. apply Hnin.
    destruct Hm as (l&Hp&HF). apply elem_of_list_lookup in Hy as [k Hk].
    destruct (Forall2_lookup_l _ _ _ _ _ HF Hk) as ([x' y']&Hk'&Hx'&_). cbn in Hx'.
    assert (x' = x) as -> by congruence.
    rewrite fmap_app. apply elem_of_app. right. rewrite <- Hp.
    apply elem_of_list_fmap. exists (x, y'). split; [done|]. by eapply elem_of_list_lookup_2.
Qed.

(** ** do_substitute *)
Fixpoint assoc {A} (x : string) (prs : list (string * A)) : option A :=
  match prs with
  | [] => None
  | (y, a) :: prs => if String.eqb x y then Some a else assoc x prs
  end.
Lemma assoc_elem {A} x (a : A) prs : NoDup prs.*1 -> assoc x prs = Some a <-> (x, a) ∈ prs.
Proof.
  induction prs as [|[y b] prs IH]; cbn; intros Hnd.
  - split; [done|by intros ?%elem_of_nil].
  - apply NoDup_cons in Hnd as [Hy Hnd]. destruct (String.eqb_spec x y) as [->|Hne].
    + rewrite elem_of_cons. split; [intros [= ->]; by left|].
      intros [[= ->]|Hin]; [done|]. exfalso. apply Hy. apply elem_of_list_fmap. by exists (y, a).
    + rewrite elem_of_cons, IH by done. split; [by right|]. intros [[= -> ->]|?]; done.
Qed.

Definition sub_env (s : bst) (prs : list (string * fml)) (E : nenv) : nenv := fun x =>
  match assoc x prs with Some g => den s g E | None => E x end.

Lemma senv_env_of s su prs E v : WF s -> sorted s su -> matches s su prs -> NoDup prs.*1 ->
  v < nvars s -> senv s (env_of s E) su v = env_of s (sub_env s prs E) v.
Proof.
  intros W Hso Hm Hnd Hv.
  destruct (lookup_lt_is_Some_2 (vnames s) (N.to_nat v)) as [x Hx].
  { rewrite (wf_len _ W). unfold nvars in Hv. lia. }
  unfold env_of at 2. rewrite Hx. unfold sub_env.
  destruct Hm as (l&Hp&HF).
  assert (Hnd' : NoDup l.*1) by (by rewrite Hp).
  assert (forall g, assoc x prs = Some g <-> assoc x l = Some g) as Ha.
  { intros g. rewrite !assoc_elem by done. by rewrite Hp. }
  assert (assoc x prs = assoc x l) as ->.
  { destruct (assoc x l) as [g|]; [by apply Ha|].
    destruct (assoc x prs) as [g|]; [|done]. symmetry. by apply Ha. }
  clear Ha Hp Hnd prs. revert l HF Hnd'. induction su as [|[w y] su IH]; intros l HF Hnd'.
  - inversion HF; subst. cbn. unfold env_of. by rewrite Hx.
  - destruct l as [|[x' y'] l]; [by inversion HF|].
    apply Forall2_cons in HF as [[Hw Hy] HF]. cbn [fst snd] in *. subst y'.
    destruct Hso as (Hw'&Ly&Hord&Hso). apply NoDup_cons in Hnd' as [Hx' Hnd'].
    cbn [senv assoc]. destruct (String.eqb_spec x x') as [->|Hne].
    + assert (w = v) as ->.
      { apply N2Nat.inj. by eapply NoDup_lookup; [apply (wf_names _ W)|..]. }
      rewrite upd_eq. done.
    + rewrite upd_ne by congruence. by apply IH.
Qed.

Lemma map_subst_spec subs su fs : forall s sc, WF s -> Forall (live s) fs -> rep s subs su ->
  sorted s su -> sc_ok s su sc ->
  spec (map_subst fs subs sc) s (fun rs s' =>
    Forall2 (fun f r => live s' r /\ forall e, sem s' e r = sem s (senv s e su) f) fs rs).
Proof.
  induction fs as [|f fs IH]; intros s sc W HL Hrep Hso Hsc; cbn [map_subst].
  { apply spec_ret; [done|]. by apply Forall2_nil. }
  apply Forall_cons in HL as [Lf HL]. apply spec_bind.
  assert (spec (b_substitute f subs sc) s (fun p s' => live s' p.1 /\ sc_ok s' su p.2 /\
    forall e, sem s' e p.1 = sem s (senv s e su) f)) as H1.
  { unfold spec, b_substitute. apply (b_subst_rec_spec su _ s f subs su sc []); try done. unfold nvars. lia. }
  eapply spec_weaken; [exact H1|]. intros r s1 W1 P1 (Lr&Hsc1&Sr) _ _.
  apply spec_bind. eapply spec_weaken.
  { apply IH; try done.
    - eapply Forall_impl; [done|]. intros. plive.
    - eapply rep_ext; [by apply pext_ext|done].
    - eapply sorted_ext; [by apply pext_ext|done]. }
  intros rs s2 W2 P2 HF _ _. apply spec_ret; [done|]. apply Forall2_cons. split.
  - split; [plive|]. intros e. rewrite (pext_sem s1 s2) by done. apply Sr.
  - rewrite Forall_forall in HL.
    apply (Forall2_impl (fun f r => f ∈ fs /\ live s2 r /\ forall e, sem s2 e r = sem s1 (senv s1 e su) f)).
    + apply Forall2_same_length_lookup. split; [by apply Forall2_length in HF|].
      intros k f' r' Hf Hr. split; [by eapply elem_of_list_lookup_2|].
      exact (Forall2_lookup_lr _ _ _ _ _ _ HF Hf Hr).
    + intros f' r' (Hin&Lr'&Sr'). split; [done|]. intros e. rewrite Sr'.
      specialize (HL _ Hin). rewrite (pext_sem s s1) by done. apply sem_env_eq; try done.
      intros. apply senv_sem_ext; try done. by apply pext_ext.
Qed.

Lemma do_substitute_spec s prs fs : WF s -> Forall (fun p => live s p.2) prs -> Forall (live s) fs ->
  espec (do_substitute prs fs) s (fun o s' =>
    match o with
    | Some rs => NoDup prs.*1 /\
        Forall2 (fun f r => live s' r /\ forall E, den s' r E = den s f (sub_env s prs E)) fs rs
    | None => ~ NoDup prs.*1
    end).
Proof.
  intros W HL Hfs. unfold do_substitute. apply espec_bind.
  eapply espec_weaken.
  { apply (build_subs_spec prs s [] [] []); try done.
    - by apply Forall2_nil.
    - exists []. split; [done|]. by apply Forall2_nil. }
  intros o s1 W1 X1 Ho _ _. destruct o as [subs|].
  2:{ apply espec_ret; [done|]. by rewrite app_nil_r in Ho. }
  destruct Ho as (su&Hrep&Hso&Hm). rewrite app_nil_r in Hm.
  assert (NoDup prs.*1) as Hnd.
  { destruct Hm as (l&Hp&HF). rewrite <- Hp. clear Hrep Hp.
    revert l HF. induction su as [|[w y] su IH]; intros l HF.
    - inversion HF; subst. constructor.
    - destruct l as [|[x' y'] l]; [by inversion HF|].
      apply Forall2_cons in HF as [[Hw _] HF]. cbn [fst snd] in *.
      destruct Hso as (Hw'&Ly&Hord&Hso). cbn. apply NoDup_cons. split; [|by apply IH].
      intros Hin. apply elem_of_list_fmap in Hin as ([x2 y2]&->&Hin). cbn in Hw.
      apply elem_of_list_lookup in Hin as [k Hk].
      destruct (Forall2_lookup_r _ _ _ _ _ HF Hk) as ([w2 y3]&Hk'&Hw2&_). cbn in Hw2.
      assert (w2 = w) as ->.
      { apply N2Nat.inj. by eapply NoDup_lookup; [apply (wf_names _ W1)|..]. }
      apply elem_of_list_lookup_2 in Hk'. apply Hord in Hk'. lia. }
  apply espec_bind. eapply espec_weaken.
  { apply spec_espec. apply (map_subst_spec subs su fs s1 ∅); try done.
    eapply Forall_impl; [done|]. intros. by eapply ext_live. }
  intros rs s2 W2 X2 HF _ _. apply espec_ret; [done|]. split; [done|].
  apply Forall2_same_length_lookup. split; [by apply Forall2_length in HF|].
  intros k f r Hf Hr. destruct (Forall2_lookup_lr _ _ _ _ _ _ HF Hf Hr) as [Lr Sr].
  rewrite Forall_forall in Hfs. assert (live s f) as Lf by (by eapply Hfs, elem_of_list_lookup_2).
  split; [done|]. intros E. unfold den at 1. rewrite Sr.
  assert (live s1 f) as Lf1 by (by eapply ext_live).
  transitivity (sem s1 (env_of s1 (sub_env s1 prs E)) f).
  - apply sem_env_ext; try done. intros v Hv. rewrite <- (senv_env_of s1 su prs E v) by done.
    assert (forall v, v < nvars s1 -> env_of s2 E v = env_of s1 E v) as He
      by (intros; by apply env_of_ext).
    clear -He Hv W1 Hso. induction su as [|[w y] su IH]; [by apply He|].
    destruct Hso as (?&?&?&?). cbn. unfold upd. case_decide; [|auto]. by apply sem_env_ext.
  - change (den s1 f (sub_env s1 prs E) = den s f (sub_env s prs E)).
    rewrite (den_ext s s1) by done. unfold den. apply sem_env_eq; try done.
    intros v. unfold env_of. destruct (vnames s !! N.to_nat v) as [x|]; [|done].
    unfold sub_env. destruct (assoc x prs) as [g|] eqn:Eg; [|done].
    apply assoc_elem in Eg; [|done]. rewrite Forall_forall in HL. apply HL in Eg. cbn in Eg.
    by apply den_ext.
Qed.
