(** Saving and loading formulas: /repo/src/bin/fl/new_bdd.c 816-908, 3599-3645.

    Simplifications: the file is modelled by its records ("v", "n" and "r"
    lines); that fscanf reads back the decimal numbers, signs and names written
    by fprintf is assumed (for names: true only of names without white space,
    since "%s" stops there).  A file that cannot be opened is not modelled. *)
From stdpp Require Import gmap strings list.
From Coq Require Import NArith Lia.
From Verif Require Import BddModel BddWf BddOps BddVar BddQuant BddDen BddSize.
Open Scope N_scope.

(** A reference in the file: sign and number of an "n" record (0 = constant). *)
Notation fref := (prod bool nat).
Notation frec := (prod (prod nat fref) fref).
Record bfile := mkFile { f_vars : list string; f_nodes : list frec; f_roots : list fref }.

(** save_var_tbl: find_hash returns 0 for an absent name. *)
Definition vidx (names : list string) (x : string) : nat :=
  match list_find (fun y => y = x) names with Some (i, _) => i | None => O end.

(** new_bdd.c 3599-3645 (b_save).  State: bdd_save_tbl and the records written.
    The branch for a complemented low son writes a malformed record (stray
    closing parenthesis); it is a failure here. *)
Notation svst := (prod (gmap N nat) (list frec)).
Fixpoint b_save (fuel : nat) (s : bst) (names : list string) (i : N) (t : svst) : option svst :=
  match fuel with
  | O => None
  | S fuel =>
    if decide (i = 0) then Some t else
    match t.1 !! i with
    | Some _ => Some t
    | None =>
      match nodes s !! i with
      | None => None
      | Some (v, l, r) =>
        match b_save fuel s names l.2 t with
        | None => None
        | Some t1 =>
          let il : nat := if decide (l.2 = 0) then O else default O ((t1.1 : gmap N nat) !! l.2) in
          match b_save fuel s names r.2 t1 with
          | None => None
          | Some t2 =>
            let ir : nat := if decide (r.2 = 0) then O else default O ((t2.1 : gmap N nat) !! r.2) in
            match vnames s !! N.to_nat v with
            | None => None
            | Some x =>
              if ((l : fml).1 : bool) then None else
              Some (<[i := S (length t2.2)]> t2.1,
                    t2.2 ++ [(vidx names x, (l.1, il), (r.1, ir))])
            end
          end
        end
      end
    end
  end.
Fixpoint save_all (s : bst) (names : list string) (fs : list fml) (t : svst) : option svst :=
  match fs with
  | [] => Some t
  | f :: fs => match b_save (S (length (ord s))) s names f.2 t with
               | None => None | Some t' => save_all s names fs t' end
  end.

(** new_bdd.c 816-862 (Save_BDDs).  The variables are found by B_Size/B_Width
    exactly as in [depends]. *)
Definition Save_BDDs (roots : list fml) (s : bst) : option bfile :=
  match depends roots s with
  | None => None
  | Some (names, _) =>
    match save_all s names roots (∅, []) with
    | None => None
    | Some t => Some (mkFile names t.2 (map (fun f => (f.1, default O (t.1 !! f.2))) roots))
    end
  end.

(** new_bdd.c 864-908 (Load_BDDs); an index out of range is [None]. *)
Fixpoint load_vars (names : list string) (acc : list fml) : M (list fml) :=
  match names with
  | [] => ret acc
  | x :: names => let* b := B_Var x in load_vars names (acc ++ [b])
  end.
Definition deref (w : list fml) (p : fref) : option fml :=
  match w !! p.2 with Some f => Some (if p.1 then bnot f else f) | None => None end.
Fixpoint load_nodes (vm : list fml) (recs : list frec) (w : list fml) : M (list fml) := fun s =>
  match recs with
  | [] => Some (w, s)
  | (vi, l, r) :: recs =>
    match vm !! vi, deref w l, deref w r with
    | Some v, Some t, Some e => (let* b := B_Ite v t e in load_nodes vm recs (w ++ [b])) s
    | _, _, _ => None
    end
  end.
Definition load_roots (w : list fml) (rs : list fref) : option (list fml) := mapM (deref w) rs.
Definition Load_BDDs (f : bfile) : M (list fml) :=
  let* vm := load_vars (f_vars f) [] in
  let* w := load_nodes vm (f_nodes f) [ZERO] in
  fun s => match load_roots w (f_roots f) with Some rs => Some (rs, s) | None => None end.

(** ** Meaning of a file *)
Definition zf : bfun := fun _ : nenv => false.
Definition rval (vs : list bfun) (p : fref) : bfun := fun E : nenv => xorb p.1 (nth p.2 vs zf E).
Definition fstep (names : list string) (vs : list bfun) (r : frec) : list bfun :=
  vs ++ [fun E : nenv => if E (nth r.1.1 names ""%string) then rval vs r.1.2 E else rval vs r.2 E].
Definition fvals (names : list string) (recs : list frec) (vs : list bfun) : list bfun :=
  foldl (fstep names) vs recs.
Fixpoint recs_ok (nn : nat) (k : nat) (recs : list frec) : Prop :=
  match recs with
  | [] => True
  | (vi, l, r) :: recs => (vi < nn /\ l.2 < k /\ r.2 < k)%nat /\ recs_ok nn (S k) recs
  end.
Definition file_ok (f : bfile) : Prop :=
  recs_ok (length (f_vars f)) 1 (f_nodes f) /\
  Forall (fun p => p.2 < S (length (f_nodes f)))%nat (f_roots f).
Definition file_sem (f : bfile) : list bfun :=
  map (rval (fvals (f_vars f) (f_nodes f) [zf])) (f_roots f).

Lemma fvals_length names recs vs : length (fvals names recs vs) = (length vs + length recs)%nat.
Proof.
  revert vs. induction recs as [|r recs IH]; intros vs; [cbn; lia|].
  change (fvals names (r :: recs) vs) with (fvals names recs (fstep names vs r)).
  rewrite IH. unfold fstep. rewrite app_length. cbn. lia.
Qed.
Lemma fvals_app names r1 r2 vs : fvals names (r1 ++ r2) vs = fvals names r2 (fvals names r1 vs).
Proof. unfold fvals. apply foldl_app. Qed.
Lemma recs_ok_app nn r1 : forall k r2, recs_ok nn k (r1 ++ r2) <-> recs_ok nn k r1 /\ recs_ok nn (k + length r1) r2.
Proof.
  induction r1 as [|[[vi l] r] r1 IH]; intros k r2; cbn.
  - rewrite Nat.add_0_r. tauto.
  - rewrite IH. replace (k + S (length r1))%nat with (S k + length r1)%nat by lia. tauto.
Qed.

(** ** Loading *)
Definition vals_ok (s : bst) (w : list fml) (vs : list bfun) : Prop :=
  Forall2 (fun f F => live s f /\ forall E, den s f E = F E) w vs.
Lemma vals_ok_ext s s' w vs : WF s -> WF s' -> ext s s' -> vals_ok s w vs -> vals_ok s' w vs.
Proof.
  intros W W' X H0. eapply Forall2_impl; [apply H0|]. intros f F [L H]. split; [by eapply ext_live|].
  intros E. by rewrite (den_ext s s').
Qed.

Lemma load_vars_spec names : forall acc s pre, WF s ->
  vals_ok s acc (map (fun (x : string) (E : nenv) => E x) pre) ->
  espec (load_vars names acc) s (fun vm s' => vals_ok s' vm (map (fun (x : string) (E : nenv) => E x) (pre ++ names))).
Proof.
  induction names as [|x names IH]; intros acc s pre W H; cbn [load_vars].
  - apply espec_ret; [done|]. by rewrite app_nil_r.
  - apply espec_bind. eapply espec_weaken; [apply (vspec_espec _ x), (B_Var_spec _ _ W)|].
    intros b s1 W1 X1 (Lb&v&Hv&Hn&Hs) _ _.
    eapply espec_weaken; [apply (IH _ _ (pre ++ [x]) W1)|].
    + rewrite map_app. apply Forall2_app; [by apply (vals_ok_ext s s1)|]. cbn. constructor; [|constructor].
      split; [done|]. intros E. unfold den. rewrite Hs. unfold env_of. by rewrite Hn.
    + intros vm s2 W2 X2 H2. by rewrite <- app_assoc in H2.
Qed.

Lemma deref_spec s w vs p : WF s -> vals_ok s w vs -> (p.2 < length w)%nat ->
  exists f, deref w p = Some f /\ live s f /\ forall E, den s f E = rval vs p E.
Proof.
  intros W H Hp. unfold deref. destruct (lookup_lt_is_Some_2 w p.2 Hp) as [f Hf]. rewrite Hf.
  destruct (Forall2_lookup_l _ _ _ _ _ H Hf) as (F&HF&L&HD). eexists. split; [done|].
  unfold rval. rewrite (nth_lookup_Some _ _ _ _ HF). destruct p as [[] k]; cbn.
  - split; [done|]. intros E. rewrite <- HD. unfold den. rewrite sem_bnot by done. by destruct (sem _ _ f).
  - split; [done|]. intros E. rewrite HD. by destruct (F E).
Qed.

Lemma load_nodes_spec names vm recs : forall w vs s, WF s ->
  vals_ok s vm (map (fun (x : string) (E : nenv) => E x) names) -> vals_ok s w vs -> recs_ok (length names) (length w) recs ->
  espec (load_nodes vm recs w) s (fun w' s' => vals_ok s' w' (fvals names recs vs)).
Proof.
  induction recs as [|[[vi l] r] recs IH]; intros w vs s W Hvm Hw Hok.
  - by apply (espec_ret w).
  - destruct Hok as [(Hvi&Hl&Hr) Hok].
    destruct (deref_spec s w vs l W Hw Hl) as (t&Et&Lt&Dt). destruct (deref_spec s w vs r W Hw Hr) as (e&Ee&Le&De).
    destruct (lookup_lt_is_Some_2 names vi Hvi) as [x Hx].
    destruct (Forall2_lookup_r _ _ _ vi (fun E : nenv => E x) Hvm) as (v&Ev&Lv&Dv).
    { rewrite list_lookup_fmap, Hx. done. }
    unfold espec. cbn [load_nodes]. rewrite Ev, Et, Ee.
    apply espec_bind. eapply espec_weaken; [apply spec_espec, (B_Ite_spec s v t e W Lv Lt Le)|].
    intros b s1 W1 X1 [Lb Hb] _ _.
    eapply espec_weaken; [apply (IH _ (vs ++ [fun E : nenv => if E x then rval vs l E else rval vs r E]) s1 W1)|].
    + by apply (vals_ok_ext s s1).
    + apply Forall2_app; [by apply (vals_ok_ext s s1)|]. constructor; [|constructor]. split; [done|].
      intros E. rewrite <- Dv, <- Dt, <- De. unfold den at 1. rewrite Hb.
      rewrite <- (den_ext s s1 v), <- (den_ext s s1 t), <- (den_ext s s1 e) by done. unfold den.
      assert (forall g, live s g -> sem s (env_of s1 E) g = sem s1 (env_of s1 E) g) as HH.
      { intros g Lg. symmetry. by apply ext_sem. }
      rewrite ?HH by done. by destruct (sem s1 (env_of s1 E) v).
    + rewrite app_length. cbn. by rewrite Nat.add_1_r.
    + intros w' s' W' X' H'. unfold fvals in *. cbn [foldl]. unfold fstep at 2. cbn [fst snd].
      by rewrite (nth_lookup_Some _ _ _ _ Hx).
Qed.

Lemma Load_spec f s : WF s -> file_ok f ->
  espec (Load_BDDs f) s (fun rs s' => vals_ok s' rs (file_sem f)).
Proof.
  intros W [Hok Hrs]. unfold Load_BDDs. apply espec_bind.
  eapply espec_weaken; [apply (load_vars_spec (f_vars f) [] s [] W)|].
  { constructor. }
  intros vm s1 W1 X1 Hvm _ _. cbn in Hvm. apply espec_bind.
  eapply espec_weaken; [apply (load_nodes_spec (f_vars f) vm (f_nodes f) [ZERO] [zf] s1 W1 Hvm)|].
  { constructor; [|constructor]. split; [apply live_const|]. intros E. unfold den. apply sem_ZERO. }
  { done. }
  intros w s2 W2 X2 Hw _ _. unfold load_roots, file_sem, espec.
  assert (length w = S (length (f_nodes f))) as Hlen.
  { apply Forall2_length in Hw. rewrite fvals_length in Hw. cbn in Hw. lia. }
  assert (exists rs, mapM (deref w) (f_roots f) = Some rs /\
    vals_ok s2 rs (map (rval (fvals (f_vars f) (f_nodes f) [zf])) (f_roots f))) as (rs&->&Hr).
  { clear -Hrs Hlen W2 Hw. induction (f_roots f) as [|p ps IH].
    - exists []. split; [done|]. constructor.
    - apply Forall_cons in Hrs as [Hp Hps]. destruct (IH Hps) as (rs&E&Hr).
      destruct (deref_spec s2 w _ p W2 Hw) as (g&Eg&Lg&Dg); [lia|].
      exists (g :: rs). split.
      + cbn. rewrite Eg. cbn. rewrite E. done.
      + cbn. by constructor. }
  exists rs, s2. split_and!; try done.
Qed.

(** ** Saving *)
Record sv_ok (s : bst) (names : list string) (t : svst) : Prop := {
  sv_recs : recs_ok (length names) 1 t.2;
  sv_tbl : forall i k, t.1 !! i = Some k -> live s (false, i) /\ i <> 0 /\
     (k < S (length t.2))%nat /\ forall E, nth k (fvals names t.2 [zf]) zf E = den s (false, i) E
}.

Lemma vidx_spec names x : x ∈ names -> (vidx names x < length names)%nat /\ nth (vidx names x) names ""%string = x.
Proof.
  intros H. unfold vidx. destruct (list_find (fun y => y = x) names) as [[i y]|] eqn:E.
  - apply list_find_Some in E as (Hi&->&_). split; [by eapply lookup_lt_Some|]. by apply nth_lookup_Some.
  - apply list_find_None in E. rewrite Forall_forall in E. by destruct (E x).
Qed.

Lemma b_save_spec s names : WF s -> forall fuel i t, live s (false, i) ->
  (N.to_nat (nvars s - lvl s (false, i)) < fuel)%nat ->
  (forall v x, dep (fun e => sem s e (false, i)) v -> vnames s !! N.to_nat v = Some x -> x ∈ names) ->
  sv_ok s names t ->
  exists t', b_save fuel s names i t = Some t' /\ sv_ok s names t' /\ t.1 ⊆ t'.1 /\
    (i = 0 \/ is_Some (t'.1 !! i)) /\
    (forall j, t.1 !! j = None -> is_Some (t'.1 !! j) -> lvl s (false, i) <= lvl s (false, j)).
Proof.
  intros W. induction fuel as [|fuel IH]; intros i t L Hf Hn HT; [lia|].
  cbn [b_save]. destruct (decide (i = 0)) as [->|Hi]; [exists t; split_and!; try done; [by left|]; intros j -> []; done|].
  destruct (t.1 !! i) as [k|] eqn:Et; [exists t; split_and!; try done; [by right|]; intros j -> []; done|].
  destruct L as [?|[[[v l] r] E]]; [done|]. cbn in E. rewrite E.
  pose proof (wf_node _ W _ _ _ _ E) as (Hv&Hl1&_&Ll&Lr&Ol&Or&_).
  rewrite (lvl_node _ _ _ _ _ _ E) in Hf. pose proof (ORDER_lt_nvars _ _ W Hv).
  pose proof (dep_node s false i v l r W E) as Hdep.
  assert (forall c, c = l \/ c = r -> forall t, sv_ok s names t -> exists t', b_save fuel s names c.2 t = Some t' /\
     sv_ok s names t' /\ t.1 ⊆ t'.1 /\ (c.2 = 0 \/ is_Some (t'.1 !! c.2)) /\
     (forall j, t.1 !! j = None -> is_Some (t'.1 !! j) -> ORDER s v < lvl s (false, j))) as HC.
  { intros c Hc t0 HT0. assert (live s c /\ ORDER s v < lvl s c) as [Lc Oc] by (by destruct Hc as [->| ->]).
    assert (lvl s (false, c.2) = lvl s c) as Elc by done.
    edestruct (IH c.2 t0) as (t'&?&?&?&?&Hj); [done| | |done|exists t'; split_and!; try done; intros j Hj1 Hj2; specialize (Hj j Hj1 Hj2); lia].
    - pose proof (lvl_le s c W). assert (lvl s (false, c.2) = lvl s c) as -> by done. lia.
    - intros w x Hw. apply Hn, Hdep. right. apply (dep_pos s c w W Lc) in Hw. destruct Hc as [->| ->]; auto. }
  destruct (HC l (or_introl eq_refl) t HT) as (t1&->&HT1&S1&Hl&J1).
  destruct (HC r (or_intror eq_refl) t1 HT1) as (t2&->&HT2&S2&Hr&J2).
  destruct (lookup_lt_is_Some_2 (vnames s) (N.to_nat v)) as [x Hx].
  { rewrite (wf_len _ W). unfold nvars in Hv. lia. }
  rewrite Hx, Hl1.
  destruct (vidx_spec names x) as [Hvi Hnx]. { apply (Hn v); [apply Hdep; by left|done]. }
  set (il := if decide (l.2 = 0) then O else default O (t1.1 !! l.2)).
  set (ir := if decide (r.2 = 0) then O else default O (t2.1 !! r.2)).
  set (vs := fvals names t2.2 [zf]).
  assert (length vs = S (length t2.2)) as Hlen by (unfold vs; rewrite fvals_length; cbn; lia).
  assert (nth 0 vs zf = fun _ => false) as Hv0.
  { unfold vs. assert (forall recs w, nth 0 w zf = zf -> w <> [] ->
      nth 0 (fvals names recs w) zf = zf) as HH; [|by apply HH].
    induction recs as [|r0 recs IHr]; intros w Hw Hne; [done|]. cbn. apply IHr.
    - unfold fstep. destruct w; [done|]. done.
    - unfold fstep. by destruct w. }
  assert (forall (c : fml) k, live s c -> (c.2 = 0 /\ k = O \/ t2.1 !! c.2 = Some k) -> (k < S (length t2.2))%nat /\
    forall E, rval vs (c.1, k) E = den s c E) as HR.
  { intros [b j] k Lc [[Hj ->]|Hk]; cbn in *.
    - subst j. split; [lia|]. intros E0. unfold rval. cbn [fst snd]. rewrite Hv0. unfold den. rewrite sem_const. by destruct b.
    - destruct (sv_tbl _ _ _ HT2 _ _ Hk) as (Lj&_&Hkl&HD). split; [done|]. intros E0.
      unfold rval. cbn [fst snd]. fold vs in HD. rewrite HD. unfold den. symmetry. by apply sem_neg. }
  assert (l.2 = 0 /\ il = O \/ t2.1 !! l.2 = Some il) as Hil.
  { unfold il. destruct (decide (l.2 = 0)); [by left|right]. destruct Hl as [?|[k Hk]]; [done|].
    rewrite Hk. cbn. by eapply lookup_weaken. }
  assert (r.2 = 0 /\ ir = O \/ t2.1 !! r.2 = Some ir) as Hir.
  { unfold ir. destruct (decide (r.2 = 0)); [by left|right]. destruct Hr as [?|[k Hk]]; [done|]. by rewrite Hk. }
  destruct (HR l il Ll Hil) as [Bl Dl]. destruct (HR r ir Lr Hir) as [Br Dr].
  eexists. split; [done|]. cbn [fst snd].
  assert (forall k, (k < S (length t2.2))%nat -> nth k (fvals names (t2.2 ++ [(vidx names x, (false, il), (r.1, ir))]) [zf]) zf
     = nth k vs zf) as Hnth.
  { intros k Hk. rewrite fvals_app. fold vs. cbn. unfold fstep. rewrite app_nth1; [done|lia]. }
  assert (forall j, t.1 !! j = None -> is_Some (t2.1 !! j) -> ORDER s v < lvl s (false, j)) as J.
  { intros j Hj1 Hj2. destruct (t1.1 !! j) eqn:Ej; [apply J1; [done|by rewrite Ej]|by apply J2]. }
  split; [constructor|split; [|split]].
  - cbn [snd]. apply recs_ok_app. split; [apply (sv_recs _ _ _ HT2)|]. cbn. split; [|done].
    split_and!; lia.
  - intros j k Hj. cbn [fst snd] in *. rewrite app_length. cbn [length]. 
    destruct (decide (j = i)) as [->|Hji].
    + rewrite lookup_insert in Hj. injection Hj as <-. split_and!; [right; by eexists|done|lia|].
      intros E0. rewrite fvals_app. fold vs. cbn [fvals foldl]. unfold fstep.
      rewrite app_nth2 by lia. rewrite Hlen, Nat.sub_diag. cbn [nth fst snd].
      rewrite Hnx. rewrite Hl1 in Dl. rewrite Dl, Dr. unfold den. rewrite (sem_pos_node _ _ _ _ _ _ W E).
      assert (env_of s E0 v = E0 x) as -> by (unfold env_of; by rewrite Hx). done.
    + rewrite lookup_insert_ne in Hj by done. destruct (sv_tbl _ _ _ HT2 _ _ Hj) as (Lj&Hj0&Hkl&HD).
      split_and!; [done|done|lia|]. intros E0. rewrite Hnth by done. apply HD.
  - etrans; [done|]. etrans; [done|]. apply insert_subseteq.
    destruct (t2.1 !! i) as [k|] eqn:E2; [|done]. exfalso.
    specialize (J i Et ltac:(by rewrite E2)). rewrite (lvl_node _ _ _ _ _ _ E) in J. lia.
  - right. rewrite lookup_insert. by eexists.
  - intros j Hj1 Hj2. rewrite (lvl_node _ _ _ _ _ _ E). destruct (decide (j = i)) as [->|Hji].
    + rewrite (lvl_node _ _ _ _ _ _ E). lia.
    + rewrite lookup_insert_ne in Hj2 by done. specialize (J j Hj1 Hj2). lia.
Qed.

Lemma save_all_spec s names fs : WF s -> forall t, Forall (live s) fs ->
  (forall f v x, f ∈ fs -> dep (fun e => sem s e f) v -> vnames s !! N.to_nat v = Some x -> x ∈ names) ->
  sv_ok s names t ->
  exists t', save_all s names fs t = Some t' /\ sv_ok s names t' /\ t.1 ⊆ t'.1 /\
    Forall (fun f => f.2 = 0 \/ is_Some (t'.1 !! f.2)) fs.
Proof.
  intros W. induction fs as [|f fs IH]; intros t L Hn HT.
  - exists t. split_and!; try done.
  - apply Forall_cons in L as [Lf L]. cbn [save_all].
    destruct (b_save_spec s names W (S (length (ord s))) f.2 t) as (t1&->&HT1&S1&H1&_); [done| | |done|].
    { unfold nvars. lia. }
    { intros v x Hd. apply (Hn f v x); [by left|]. by apply (dep_pos s f v W Lf). }
    destruct (IH t1 L) as (t2&->&HT2&S2&H2); [|done|].
    { intros g v x Hg. apply Hn. by right. }
    exists t2. split_and!; try done.
    + by etrans.
    + constructor; [|done]. destruct H1 as [?|[k Hk]]; [by left|right]. exists k. by eapply lookup_weaken.
Qed.

(** The file written for formulas is well formed and means those formulas. *)
Lemma Save_spec s fs : WF s -> Forall (live s) fs ->
  exists f, Save_BDDs fs s = Some f /\ file_ok f /\
    Forall2 (fun F g => forall E, F E = den s g E) (file_sem f) fs.
Proof.
  intros W L. unfold Save_BDDs. destruct (depends_spec s fs W L) as (names&->&Hnames).
  destruct (save_all_spec s names fs W (∅, []) L) as (t&->&HT&_&Hin).
  { intros f v x Hf Hd Hx. apply Hnames. exists f. split; [done|].
    apply ndep_dep; [done|by eapply Forall_forall in L|]. by exists v. }
  { split; [done|]. intros i k H. cbn in H. by rewrite lookup_empty in H. }
  eexists. split; [done|].
  assert (Forall2 (fun F g => forall E, F E = den s g E)
    (map (rval (fvals names t.2 [zf])) (map (fun f => (f.1, default O (t.1 !! f.2))) fs)) fs /\
    Forall (fun p => p.2 < S (length t.2))%nat (map (fun f : fml => (f.1, default O (t.1 !! f.2))) fs)) as [H1 H2].
  2: { split_and!; [split; cbn; [apply (sv_recs _ _ _ HT)|done]|done]. }
  clear Hnames. induction fs as [|f fs IH]; [split; constructor|].
  apply Forall_cons in L as [Lf L]. apply Forall_cons in Hin as [Hf Hin]. destruct (IH L Hin) as [I1 I2].
  assert ((default O (t.1 !! f.2) < S (length t.2))%nat /\
    forall E, rval (fvals names t.2 [zf]) (f.1, default O (t.1 !! f.2)) E = den s f E) as [A B].
  { destruct (t.1 !! f.2) as [k|] eqn:Ek; cbn [default from_option].
    - destruct (sv_tbl _ _ _ HT _ _ Ek) as (Lj&Hj&Hk&HD). split; [done|]. intros E.
      unfold rval. cbn [fst snd]. rewrite HD. unfold den. symmetry. destruct f. by apply sem_neg.
    - destruct Hf as [Hf|[? ?]]; [|done]. split; [lia|]. intros E. unfold rval. cbn [fst snd].
      assert (nth 0 (fvals names t.2 [zf]) zf = zf) as ->.
      { assert (forall recs w, nth 0 w zf = zf -> w <> [] -> nth 0 (fvals names recs w) zf = zf) as HH; [|by apply HH].
        induction recs as [|r0 recs IHr]; intros w Hw Hne; [done|]. cbn. apply IHr.
        - unfold fstep. destruct w; [done|]. done.
        - unfold fstep. by destruct w. }
      unfold den, zf. destruct f as [b j]. cbn in *. subst j. rewrite sem_const. by destruct b. }
  split; cbn [map]; by constructor.
Qed.

(** Round trip between any two sessions. *)
Lemma Save_Load s1 s2 fs : WF s1 -> Forall (live s1) fs -> WF s2 ->
  exists f, Save_BDDs fs s1 = Some f /\
  exists gs s2', Load_BDDs f s2 = Some (gs, s2') /\ WF s2' /\ ext s2 s2' /\ Forall (live s2') gs /\
    Forall2 (fun g h => forall E, den s2' g E = den s1 h E) gs fs.
Proof.
  intros W1 L W2. destruct (Save_spec s1 fs W1 L) as (f&Hf&Ok&HS). exists f. split; [done|].
  destruct (Load_spec f s2 W2 Ok) as (gs&s'&Hl&W'&X&HL). exists gs, s'. split_and!; try done.
  - eapply Forall2_Forall_l; [apply HL|]. apply Forall_forall. intros. by destruct H0.
  - unfold vals_ok in HL. clear -HL HS. revert gs HL. induction HS as [|F h Fs hs HF HFs IH]; intros gs HL.
    + inversion HL; subst. constructor.
    + inversion HL as [|g ? gs' ? [_ Hg] Hgs]; subst. constructor; [|by apply IH].
      intros E. by rewrite Hg, HF.
Qed.
