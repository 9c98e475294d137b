(** Model counting: do_truth_cover and truth_cover_rec of
    /repo/src/bin/fl/new_bdd.c (builtins simple_model_count, truth_cover_n). *)
From stdpp Require Import gmap strings list.
From Coq Require Import NArith Lia.
From Verif Require Import BddModel BddWf BddOps BddVar BddDen BddQuant BddSubst BddSize.
Open Scope N_scope.
Local Arguments N.mul : simpl never.
Local Arguments N.add : simpl never.

(** ** Model *)

(** Result of a builtin: a value, or the fl-level failure. *)
Inductive res (A : Type) := Ok (a : A) | Err.
Arguments Ok {A}. Arguments Err {A}.

(** The inner while loop (2151-2161): skip to [v] in the buffer, doubling. *)
Fixpoint skip_to (v : N) (rest : list N) : option (N * list N) :=
  match rest with
  | [] => None
  | w :: rest => if decide (w = v) then Some (1, rest) else
      match skip_to v rest with Some (m, r) => Some (m * 2, r) | None => None end
  end.

(** new_bdd.c 2123-2190 (truth_cover_rec); [rest] is the buffer from idx on.
    Counts are the arbitrary-precision integers of arbi.c, here N. *)
Fixpoint truth_cover_rec (fuel : nat) (s : bst) (rest : list N) (b : fml) (dn : gmap fml N)
  : option (res N * gmap fml N) :=
  match fuel with
  | O => None
  | S fuel =>
    if decide (b = ZERO) then Some (Ok 0, dn) else
    if decide (b = ONE) then Some (Ok (2 ^ N.of_nat (length rest)), dn) else
    match nodes s !! b.2 with
    | None => None
    | Some n =>
      match skip_to n.1.1 rest with
      | None => Some (Err, dn)
      | Some (mult, rest') =>
        match dn !! b with
        | Some old => Some (Ok (mult * old), dn)
        | None =>
          match truth_cover_rec fuel s rest' (lsonc b n) dn with
          | None => None
          | Some (Err, dn1) => Some (Err, dn1)
          | Some (Ok lres, dn1) =>
            match truth_cover_rec fuel s rest' (rsonc b n) dn1 with
            | None => None
            | Some (Err, dn2) => Some (Err, dn2)
            | Some (Ok rres, dn2) =>
              Some (Ok (mult * (lres + rres)), <[b := lres + rres]> dn2)
            end
          end
        end
      end
    end
  end.

(** qsort with var_ord_comp: by position in the order. *)
Fixpoint ins_ord (s : bst) (v : N) (l : list N) : list N :=
  match l with
  | [] => [v]
  | w :: l' => if decide (ORDER s v < ORDER s w) then v :: l else w :: ins_ord s v l'
  end.
Definition sort_ord (s : bst) (l : list N) : list N := foldr (ins_ord s) [] l.

(** The loop 1719-1726 / 2089-2096: declare the named variables. *)
Fixpoint collect_vars (xs : list string) : M (list N) :=
  match xs with
  | [] => ret []
  | x :: xs => let* f := B_Var x in let* v := top_var f in
               let* vs := collect_vars xs in ret (v :: vs)
  end.
(** new_bdd.c 1707-1743 (do_truth_cover). *)
Definition truth_cover (xs : list string) (f : fml) : M (res N) :=
  let* vs := collect_vars xs in
  fun s => match truth_cover_rec (S (length (ord s))) s (sort_ord s vs) f ∅ with
           | None => None
           | Some (r, _) => Some (r, s)
           end.
(** new_bdd.c 2077-2121 (do_truth_cover_n): the table is shared by the functions. *)
Fixpoint cover_list (s : bst) (vs : list N) (fs : list fml) (dn : gmap fml N) : option (res (list N)) :=
  match fs with
  | [] => Some (Ok [])
  | f :: fs =>
    match truth_cover_rec (S (length (ord s))) s vs f dn with
    | None => None
    | Some (Err, _) => Some Err
    | Some (Ok n, dn) =>
      match cover_list s vs fs dn with
      | None => None
      | Some Err => Some Err
      | Some (Ok ns) => Some (Ok (n :: ns))
      end
    end
  end.
Definition truth_cover_n (xs : list string) (fs : list fml) : M (res (list N)) :=
  let* vs := collect_vars xs in
  fun s => match cover_list s (sort_ord s vs) fs ∅ with None => None | Some r => Some (r, s) end.

(** ** Counting assignments *)
Definition b2n (b : bool) : N := if b then 1 else 0.
Fixpoint cnt (vs : list N) (P : env -> bool) (e : env) : N :=
  match vs with
  | [] => b2n (P e)
  | v :: vs => cnt vs P (upd e v true) + cnt vs P (upd e v false)
  end.

Lemma cnt_env vs P : env_ext P -> forall e e', (forall v, e v = e' v) -> cnt vs P e = cnt vs P e'.
Proof.
  intros HP. induction vs as [|w vs IH]; intros e e' H; cbn; [by rewrite (HP e e')|].
  f_equal; apply IH; by apply upd_env_eq.
Qed.
Lemma cnt_ext vs P Q : (forall e, P e = Q e) -> forall e, cnt vs P e = cnt vs Q e.
Proof. intros H. induction vs as [|w vs IH]; intros e; cbn; [by rewrite H|]. by rewrite !IH. Qed.
Lemma cnt_indep vs v P : env_ext P -> (forall e b, P (upd e v b) = P e) ->
  forall e b, cnt vs P (upd e v b) = cnt vs P e.
Proof.
  intros HP Hv. induction vs as [|w vs IH]; intros e b; cbn; [by rewrite Hv|].
  destruct (decide (w = v)) as [->|Hne].
  - f_equal; apply cnt_env; try done; intros; by apply upd_upd.
  - f_equal.
    + rewrite (cnt_env vs P HP (upd (upd e v b) w true) (upd (upd e w true) v b))
        by (intros; by apply upd_comm). apply IH.
    + rewrite (cnt_env vs P HP (upd (upd e v b) w false) (upd (upd e w false) v b))
        by (intros; by apply upd_comm). apply IH.
Qed.
Lemma cnt_const vs b e : cnt vs (fun _ => b) e = b2n b * 2 ^ N.of_nat (length vs).
Proof.
  revert e. induction vs as [|w vs IH]; intros e; cbn [cnt length].
  - cbn. lia.
  - rewrite !IH, Nat2N.inj_succ, N.pow_succ_r'. lia.
Qed.
Lemma cnt_perm vs vs' P : env_ext P -> NoDup vs -> vs ≡ₚ vs' -> forall e, cnt vs P e = cnt vs' P e.
Proof.
  intros HP Hnd Hp. revert Hnd. induction Hp as [|v l l' Hp IH|v w l|l1 l2 l3 H1 IH1 H2 IH2]; intros Hnd e; cbn.
  - done.
  - apply NoDup_cons in Hnd as [_ Hnd]. by rewrite !IH.
  - apply NoDup_cons in Hnd as [Hin _].
    assert (v <> w) as Hne by (intros ->; apply Hin; left).
    rewrite !(cnt_env l P HP (upd (upd e v _) w _) (upd (upd e w _) v _)) by (intros; by apply upd_comm).
    lia.
  - rewrite IH1 by done. apply IH2. by rewrite <- H1.
Qed.

(** ** truth_cover_rec *)
Fixpoint osorted (s : bst) (l : list N) : Prop :=
  match l with
  | [] => True
  | v :: l => v < nvars s /\ (forall w, w ∈ l -> ORDER s v < ORDER s w) /\ osorted s l
  end.
Lemma osorted_lt s l v : osorted s l -> v ∈ l -> v < nvars s.
Proof. induction l as [|w l IH]; [by intros _ ?%elem_of_nil|]. intros (?&?&?) [->|?]%elem_of_cons; auto. Qed.
Lemma osorted_app s l1 l2 : osorted s (l1 ++ l2) -> osorted s l2.
Proof. induction l1 as [|w l IH]; [done|]. intros (?&?&?). auto. Qed.

Lemma skip_to_spec v rest : match skip_to v rest with
  | Some (m, r) => exists l, rest = l ++ v :: r /\ v ∉ l /\ m = 2 ^ N.of_nat (length l)
  | None => v ∉ rest end.
Proof.
  induction rest as [|w rest IH]; cbn; [by intros ?%elem_of_nil|].
  destruct (decide (w = v)) as [->|Hne].
  { exists []. split_and!; try done. by intros ?%elem_of_nil. }
  destruct (skip_to v rest) as [[m r]|].
  - destruct IH as (l&->&Hin&->). exists (w :: l). split_and!; [done|by apply not_elem_of_cons|].
    cbn [length]. rewrite Nat2N.inj_succ, N.pow_succ_r'. lia.
  - by apply not_elem_of_cons.
Qed.

Definition supp (s : bst) (f : fml) (vs : list N) : Prop :=
  forall v, dep (fun e => sem s e f) v -> v ∈ vs.
(** Meaning of the table of finished nodes. *)
Definition dn_ok (s : bst) (vars : list N) (dn : gmap fml N) : Prop :=
  forall b n, dn !! b = Some n -> exists l1 v l2 l r, vars = l1 ++ v :: l2 /\
    nodes s !! b.2 = Some (v, l, r) /\ supp s b (v :: l2) /\
    forall e, cnt (v :: l2) (fun e => sem s e b) e = n.

Lemma cnt_skip s l rest b : WFn s -> live s b ->
  (forall v, v ∈ l -> v < nvars s /\ ORDER s v < lvl s b) -> forall e,
  cnt (l ++ rest) (fun e => sem s e b) e = 2 ^ N.of_nat (length l) * cnt rest (fun e => sem s e b) e.
Proof.
  intros W L H. induction l as [|w l IH]; intros e; [cbn; lia|]. cbn [cnt app length].
  destruct (H w ltac:(left)) as [Hw1 Hw2].
  rewrite !(cnt_indep (l ++ rest) w); [|by apply sem_env_ext'|intros; by apply sem_upd_above|
    by apply sem_env_ext'|intros; by apply sem_upd_above].
  rewrite IH by (intros; apply H; by right). rewrite Nat2N.inj_succ, N.pow_succ_r'. lia.
Qed.

Lemma dep_level s f v : WFn s -> live s f -> dep (fun e => sem s e f) v -> lvl s f <= ORDER s v.
Proof.
  intros W L Hd. pose proof (dep_lt s f v W L Hd) as Hv. destruct (N.le_gt_cases (lvl s f) (ORDER s v)); [done|].
  exfalso. destruct Hd as [e He]. apply He. by rewrite !sem_upd_above.
Qed.

Lemma truth_cover_rec_spec s vars fuel : WFn s -> osorted s vars -> forall l0 rest b dn,
  vars = l0 ++ rest -> live s b -> dn_ok s vars dn ->
  (N.to_nat (nvars s - lvl s b) < fuel)%nat ->
  exists r dn', truth_cover_rec fuel s rest b dn = Some (r, dn') /\ dn_ok s vars dn' /\
    match r with
    | Ok n => supp s b rest /\ forall e, cnt rest (fun e => sem s e b) e = n
    | Err => ~ supp s b rest
    end.
Proof.
  intros W Hso. induction fuel as [|fuel IH]; intros l0 rest b dn Hvars L Hdn Hfuel; [lia|].
  cbn [truth_cover_rec].
  destruct (decide (b = ZERO)) as [->|H0].
  { eexists _, _. split; [done|]. split; [done|]. split; [intros v Hd; by apply dep_const in Hd|].
    intros e. rewrite (cnt_ext rest _ (fun _ => false)) by (intros; apply sem_ZERO).
    rewrite cnt_const. cbn. lia. }
  destruct (decide (b = ONE)) as [->|H1].
  { eexists _, _. split; [done|]. split; [done|]. split; [intros v Hd; by apply dep_const in Hd|].
    intros e. rewrite (cnt_ext rest _ (fun _ => true)) by (intros; apply sem_ONE).
    rewrite cnt_const. cbn [b2n]. lia. }
  destruct (live_cases _ _ L) as [Hb|(v&l&r&E)].
  { exfalso. destruct b as [[] ?]; cbn in Hb; subst; done. }
  rewrite E. cbn [fst snd].
  pose proof (wf_node _ W _ _ _ _ E) as (Hv&_).
  destruct (live_lsonc s b v l r W E) as [Lls Lrs].
  destruct (lvl_sonsc s b v l r W E) as (Olf&Ols&Ors).
  pose proof (fun e => sem_sonsc s b v l r e W E) as Hsf.
  set (ls := lsonc b (v, l, r)) in *. set (rs := rsonc b (v, l, r)) in *.
  pose proof (ORDER_lt_nvars _ _ W Hv). pose proof (lvl_le s ls W). pose proof (lvl_le s rs W).
  assert (Hdepb : forall w, dep (fun e => sem s e b) w <->
    w = v \/ dep (fun e => sem s e ls) w \/ dep (fun e => sem s e rs) w).
  { intros w. destruct b as [n i]. cbn in E. rewrite (dep_node s n i v l r W E).
    unfold ls, rs, lsonc, rsonc. cbn. destruct n; [|done].
    pose proof (wf_node _ W _ _ _ _ E) as (_&_&_&Ll&Lr&_). by rewrite !dep_bnot. }
  pose proof (skip_to_spec v rest) as Hsk. destruct (skip_to v rest) as [[mult rest']|].
  2:{ eexists _, _. split; [done|]. split; [done|]. intros Hsu. apply Hsk, Hsu, Hdepb. by left. }
  destruct Hsk as (sk&->&Hnin&->).
  assert (Hvars' : vars = (l0 ++ sk) ++ v :: rest') by (by rewrite <- app_assoc).
  assert (Hso1 : osorted s (sk ++ v :: rest')) by (rewrite Hvars in Hso; by apply osorted_app in Hso).
  assert (Hsk : forall w, w ∈ sk -> w < nvars s /\ ORDER s w < ORDER s v).
  { clear -Hso1. induction sk as [|u sk IH]; [by intros ? ?%elem_of_nil|].
    destruct Hso1 as (Hu&Ho&Hso1). intros w [->|Hw]%elem_of_cons; [|auto].
    split; [done|]. apply Ho. apply elem_of_app. right. left. }
  assert (Hskip : forall e, cnt (sk ++ v :: rest') (fun e => sem s e b) e =
    2 ^ N.of_nat (length sk) * cnt (v :: rest') (fun e => sem s e b) e).
  { apply cnt_skip; [done|done|]. intros w Hw. rewrite Olf. by apply Hsk. }
  destruct (dn !! b) as [old|] eqn:Edn.
  { eexists _, _. split; [done|]. split; [done|].
    destruct (Hdn _ _ Edn) as (k1&v'&k2&l'&r'&Hk&E'&Hsu&Hc). rewrite E in E'. injection E' as <- <- <-.
    assert (k2 = rest') as ->.
    { rewrite Hvars' in Hk. clear -Hk Hso Hvars'. rewrite Hvars' in Hso. clear Hvars'.
      revert k1 Hk. induction (l0 ++ sk) as [|u us IH]; intros k1 Hk.
      - destruct k1 as [|u1 k1]; cbn in Hk; [congruence|]. injection Hk as <- Hk.
        exfalso. destruct Hso as (_&Ho&_). specialize (Ho v). rewrite Hk in Ho.
        assert (ORDER s v < ORDER s v); [|lia]. apply Ho. apply elem_of_app. right. left.
      - destruct k1 as [|u1 k1]; cbn in Hk.
        + injection Hk as -> Hk. exfalso. destruct Hso as (_&Ho&_).
          assert (ORDER s v < ORDER s v); [|lia]. apply Ho. apply elem_of_app. right. left.
        + injection Hk as -> Hk. destruct Hso as (_&_&Hso). by eapply IH. }
    split.
    - intros w Hw. apply elem_of_app. right. by apply Hsu.
    - intros e. by rewrite Hskip, Hc. }
  assert (Hvars2 : vars = ((l0 ++ sk) ++ [v]) ++ rest') by (rewrite <- app_assoc; done).
  assert (Hson : forall t, live s t -> ORDER s v < lvl s t ->
    supp s t (sk ++ v :: rest') -> supp s t rest').
  { intros t Lt Ot Hsu w Hw. pose proof (dep_level s t w W Lt Hw).
    apply Hsu in Hw. apply elem_of_app in Hw as [Hw|[->|Hw]%elem_of_cons]; [|lia|done].
    apply Hsk in Hw. lia. }
  destruct (IH _ rest' ls dn Hvars2 Lls Hdn) as (r1&dn1&->&Hdn1&Hr1); [lia|].
  destruct r1 as [lres|].
  2:{ eexists _, _. split; [done|]. split; [done|]. intros Hsu. apply Hr1. apply Hson; [done|done|].
      intros w Hw. apply Hsu, Hdepb. auto. }
  destruct (IH _ rest' rs dn1 Hvars2 Lrs Hdn1) as (r2&dn2&->&Hdn2&Hr2); [lia|].
  destruct r2 as [rres|].
  2:{ eexists _, _. split; [done|]. split; [done|]. intros Hsu. apply Hr2. apply Hson; [done|done|].
      intros w Hw. apply Hsu, Hdepb. auto. }
  destruct Hr1 as [Hs1 Hc1]. destruct Hr2 as [Hs2 Hc2].
  assert (Hsuv : supp s b (v :: rest')).
  { intros w Hw. apply Hdepb in Hw as [->|[Hw|Hw]]; [left|right; auto|right; auto]. }
  assert (Hcv : forall e, cnt (v :: rest') (fun e => sem s e b) e = lres + rres).
  { intros e. cbn [cnt].
    assert (Hvr : v ∉ rest').
    { intros Hin. apply osorted_app in Hso1. destruct Hso1 as (_&Ho&_). specialize (Ho v Hin). lia. }
    assert (Hside : forall bb, cnt rest' (fun e => sem s e b) (upd e v bb) =
      cnt rest' (fun e => sem s e (if bb then ls else rs)) e).
    { intros bb. transitivity (cnt rest' (fun e => sem s e (if bb then ls else rs)) (upd e v bb)).
      2:{ apply cnt_indep; [apply sem_env_ext'; [done|by destruct bb]|].
          intros. apply sem_upd_above; try done; by destruct bb. }
      assert (forall e' : env, e' v = bb -> cnt rest' (fun e => sem s e b) e' =
        cnt rest' (fun e => sem s e (if bb then ls else rs)) e') as Hx.
      { clear -Hsf Hvr. induction rest' as [|u us IHu]; intros e' He'; cbn [cnt].
        - rewrite Hsf, He'. by destruct bb.
        - apply not_elem_of_cons in Hvr as [? ?]. rewrite !IHu; try done; by rewrite upd_ne. }
      apply Hx. by rewrite upd_eq. }
    rewrite (Hside true), (Hside false). by rewrite Hc1, Hc2. }
  eexists _, _. split; [done|]. split; [|split].
  - intros b' n'. destruct (decide (b' = b)) as [->|Hne].
    + rewrite lookup_insert. intros [= <-]. exists (l0 ++ sk), v, rest', l, r. split_and!; done.
    + rewrite lookup_insert_ne by done. apply Hdn2.
  - intros w Hw. apply elem_of_app. right. by apply Hsuv.
  - intros e. by rewrite Hskip, Hcv.
Qed.

(** ** The builtins, by name *)
(** All Boolean lists of length [k]. *)
Fixpoint bools (k : nat) : list (list bool) :=
  match k with
  | O => [[]]
  | S k => (cons true <$> bools k) ++ (cons false <$> bools k)
  end.
(** [E] with the variables [xs] set to [bs]. *)
Fixpoint nset (E : nenv) (xs : list string) (bs : list bool) : nenv :=
  match xs, bs with
  | x :: xs, b :: bs => nset (nupd E x b) xs bs
  | _, _ => E
  end.
(** Number of assignments to [xs] satisfying [F], the rest as in [E]. *)
Definition count_sat (xs : list string) (F : bfun) (E : nenv) : N :=
  N.of_nat (length (filter (fun bs => F (nset E xs bs) = true) (bools (length xs)))).

Lemma count_sat_cons x xs F E :
  count_sat (x :: xs) F E = count_sat xs F (nupd E x true) + count_sat xs F (nupd E x false).
Proof.
  unfold count_sat. cbn [length bools]. rewrite filter_app, app_length, Nat2N.inj_add.
  f_equal; f_equal; induction (bools (length xs)) as [|bs l IH]; [done| |done|];
    rewrite !fmap_cons, !filter_cons; cbn [nset];
    repeat case_decide; cbn [length]; try done; by f_equal.
Qed.
Lemma count_sat_nil F E : count_sat [] F E = b2n (F E).
Proof. unfold count_sat. cbn [length bools]. rewrite filter_cons, filter_nil. cbn [nset]. case_decide as H; by destruct (F E). Qed.

Lemma cnt_count s f : WF s -> live s f -> forall xs vs, 
  Forall2 (fun x v => vnames s !! N.to_nat v = Some x) xs vs -> forall E e,
  (forall v, v < nvars s -> e v = env_of s E v) ->
  cnt vs (fun e => sem s e f) e = count_sat xs (den s f) E.
Proof.
  intros W L. induction xs as [|x xs IH]; intros vs HF E e He.
  - inversion HF; subst. rewrite count_sat_nil. cbn. f_equal. unfold den. by apply sem_env_ext.
  - inversion HF as [|? v ? vs' Hv HF' ]; subst. rewrite count_sat_cons. cbn [cnt].
    f_equal; apply IH; try done; intros w Hw.
    + destruct (env_of_nupd s E x v true W Hv w) as [->|?]; [|done]. unfold upd. case_decide; auto.
    + destruct (env_of_nupd s E x v false W Hv w) as [->|?]; [|done]. unfold upd. case_decide; auto.
Qed.

Lemma collect_vars_spec xs : forall s, WF s -> espec (collect_vars xs) s (fun vs s' =>
  Forall2 (fun x v => v < nvars s' /\ vnames s' !! N.to_nat v = Some x) xs vs).
Proof.
  induction xs as [|x xs IH]; intros s W; cbn [collect_vars].
  { apply espec_ret; [done|]. by apply Forall2_nil. }
  apply espec_bind. eapply espec_weaken; [by apply vspec_espec, B_Var_spec|].
  intros f s1 W1 X1 (Lf&v&Hv&Hn&Hsem) _ _.
  destruct (var_node s1 f v W1 Hv Lf Hsem) as (_&E&_).
  apply espec_bind. exists v, s1. split.
  { unfold top_var, bind, get_node, ret. by rewrite E. }
  split; [done|]. split; [apply ext_refl|]. intros _ _.
  apply espec_bind. eapply espec_weaken; [by apply IH|].
  intros vs s2 W2 X2 HF _ _. apply espec_ret; [done|]. apply Forall2_cons. split; [|done].
  split; [pose proof (ext_nvars _ _ X2); lia|].
  destruct X2 as (_&_&[k Hk]&_). rewrite Hk. by apply lookup_app_l_Some.
Qed.

Lemma ins_ord_perm s v l : ins_ord s v l ≡ₚ v :: l.
Proof. induction l as [|w l IH]; [done|]. cbn. case_decide; [done|]. rewrite IH. apply perm_swap. Qed.
Lemma sort_ord_perm s l : sort_ord s l ≡ₚ l.
Proof. induction l as [|w l IH]; [done|]. cbn. rewrite ins_ord_perm. by apply Permutation_cons. Qed.
Lemma ins_ord_sorted s v l : WFn s -> v < nvars s -> v ∉ l -> osorted s l -> osorted s (ins_ord s v l).
Proof.
  intros W Hv. induction l as [|w l IH]; intros Hn Hso; cbn.
  - split_and!; try done. by intros ? ?%elem_of_nil.
  - destruct Hso as (Hw&Ho&Hso). apply not_elem_of_cons in Hn as [Hne Hn]. case_decide as Hd; cbn.
    + split_and!; try done. intros u [->|Hu]%elem_of_cons; [done|]. specialize (Ho u Hu). lia.
    + split_and!; try done; [|by apply IH]. intros u Hu. rewrite ins_ord_perm in Hu.
      apply elem_of_cons in Hu as [->|Hu]; [|auto].
      assert (ORDER s v <> ORDER s w); [|lia]. intros Heq. apply Hne. by apply (wf_ord_inj _ W).
Qed.
Lemma sort_ord_sorted s l : WFn s -> NoDup l -> (forall v, v ∈ l -> v < nvars s) -> osorted s (sort_ord s l).
Proof.
  intros W. induction l as [|w l IH]; [done|]. intros [Hn Hnd]%NoDup_cons Hlt. cbn.
  apply ins_ord_sorted; [done|apply Hlt; left| |apply IH; [done|]; intros; apply Hlt; by right].
  change (w ∉ sort_ord s l). by rewrite sort_ord_perm.
Qed.

(** The variables named by a duplicate-free list are distinct. *)
Lemma names_nodup s xs vs : WF s -> NoDup xs ->
  Forall2 (fun x v => v < nvars s /\ vnames s !! N.to_nat v = Some x) xs vs -> NoDup vs.
Proof.
  intros W Hnd HF. induction HF as [|x v xs vs [Hv Hx] HF IH]; [constructor|].
  apply NoDup_cons in Hnd as [Hn Hnd]. apply NoDup_cons. split; [|auto].
  intros Hin. apply Hn. apply elem_of_list_lookup in Hin as [k Hk].
  destruct (Forall2_lookup_r _ _ _ _ _ HF Hk) as (y&Hy&_&Hv'). assert (y = x) as -> by congruence.
  by eapply elem_of_list_lookup_2.
Qed.

Definition covers (xs : list string) (F : bfun) : Prop := forall x, ndep F x -> x ∈ xs.

Lemma supp_covers s f xs vs : WF s -> live s f ->
  Forall2 (fun x v => v < nvars s /\ vnames s !! N.to_nat v = Some x) xs vs ->
  supp s f vs <-> covers xs (den s f).
Proof.
  intros W L HF. split.
  - intros Hs x Hx. apply ndep_dep in Hx as (v&Hv&Hd); [|done|done]. apply Hs in Hd.
    apply elem_of_list_lookup in Hd as [k Hk].
    destruct (Forall2_lookup_r _ _ _ _ _ HF Hk) as (y&Hy&_&Hv'). assert (y = x) as -> by congruence.
    by eapply elem_of_list_lookup_2.
  - intros Hc v Hd. pose proof (dep_lt s f v W L Hd) as Hv.
    destruct (lookup_lt_is_Some_2 (vnames s) (N.to_nat v)) as [x Hx].
    { rewrite (wf_len _ W). unfold nvars in Hv. lia. }
    assert (x ∈ xs) as Hin. { apply Hc, ndep_dep; [done|done|]. by exists v. }
    apply elem_of_list_lookup in Hin as [k Hk].
    destruct (Forall2_lookup_l _ _ _ _ _ HF Hk) as (w&Hw&_&Hx').
    assert (w = v) as ->. { apply N2Nat.inj. by eapply NoDup_lookup; [apply (wf_names _ W)|..]. }
    by eapply elem_of_list_lookup_2.
Qed.

Lemma cover_list_spec s xs vs fs : WF s -> NoDup xs -> Forall (live s) fs ->
  Forall2 (fun x v => v < nvars s /\ vnames s !! N.to_nat v = Some x) xs vs -> forall dn,
  dn_ok s (sort_ord s vs) dn ->
  exists r, cover_list s (sort_ord s vs) fs dn = Some r /\
    match r with
    | Ok ns => Forall2 (fun f n => covers xs (den s f) /\ forall E, count_sat xs (den s f) E = n) fs ns
    | Err => exists f, f ∈ fs /\ ~ covers xs (den s f)
    end.
Proof.
  intros W Hnd HL HF. pose proof (names_nodup s xs vs W Hnd HF) as Hvs.
  assert (Hso : osorted s (sort_ord s vs)).
  { apply sort_ord_sorted; [done|done|]. intros v Hv. apply elem_of_list_lookup in Hv as [k Hk].
    by destruct (Forall2_lookup_r _ _ _ _ _ HF Hk) as (y&Hy&?&_). }
  induction fs as [|f fs IH]; intros dn Hdn; cbn [cover_list].
  { eexists. split; [done|]. by apply Forall2_nil. }
  apply Forall_cons in HL as [L HL].
  destruct (truth_cover_rec_spec s (sort_ord s vs) (S (length (ord s))) W Hso [] (sort_ord s vs) f dn)
    as (r&dn'&->&Hdn'&Hr); [done|done|done|unfold nvars; lia|].
  assert (Hsu : supp s f (sort_ord s vs) <-> covers xs (den s f)).
  { rewrite <- (supp_covers s f xs vs) by done. split; intros H v Hd; apply H in Hd; by rewrite sort_ord_perm in *. }
  destruct r as [n|].
  2:{ eexists. split; [done|]. exists f. split; [left|]. by rewrite <- Hsu. }
  destruct (IH HL dn' Hdn') as (r'&->&Hr'). destruct r' as [ns|].
  2:{ eexists. split; [done|]. destruct Hr' as (g&Hg&Hng). exists g. split; [by right|done]. }
  eexists. split; [done|]. apply Forall2_cons. split; [|done]. destruct Hr as [Hs1 Hc].
  split; [by apply Hsu|]. intros E.
  rewrite <- (cnt_count s f W L xs vs) with (e := env_of s E); [|by eapply Forall2_impl; [exact HF|intros ? ? [_ ?]]|done].
  rewrite <- (Hc (env_of s E)). apply cnt_perm; [by apply sem_env_ext'|done|]. by rewrite sort_ord_perm.
Qed.

Lemma truth_cover_n_spec s xs fs : WF s -> NoDup xs -> Forall (live s) fs ->
  espec (truth_cover_n xs fs) s (fun r s' =>
    match r with
    | Ok ns => Forall2 (fun f n => covers xs (den s f) /\ forall E, count_sat xs (den s f) E = n) fs ns
    | Err => exists f, f ∈ fs /\ ~ covers xs (den s f)
    end).
Proof.
  intros W Hnd HL. unfold truth_cover_n. apply espec_bind.
  eapply espec_weaken; [by apply collect_vars_spec|]. intros vs s1 W1 X1 HF _ _.
  assert (HL1 : Forall (live s1) fs).
  { eapply Forall_impl; [done|]. intros. by eapply ext_live. }
  destruct (cover_list_spec s1 xs vs fs W1 Hnd HL1 HF ∅) as (r&E&Hr); [by intros ? ? ?|].
  exists r, s1. rewrite E. split; [done|]. split; [done|]. split; [apply ext_refl|].
  rewrite Forall_forall in HL.
  assert (Hden : forall f, f ∈ fs -> forall E, den s1 f E = den s f E) by (intros; by apply den_ext; auto).
  assert (Hcov : forall f, f ∈ fs -> covers xs (den s f) <-> covers xs (den s1 f)).
  { intros f Hf. split; intros Hc x [E0 HE0]; apply Hc; exists E0; [by rewrite <- !Hden|by rewrite !Hden]. }
  destruct r as [ns|].
  - apply Forall2_same_length_lookup. split; [by apply Forall2_length in Hr|].
    intros k f n Hf Hn. destruct (Forall2_lookup_lr _ _ _ _ _ _ Hr Hf Hn) as [Hc Hs].
    assert (f ∈ fs) by (by eapply elem_of_list_lookup_2).
    split; [by apply Hcov|]. intros E0. rewrite <- (Hs E0). unfold count_sat. f_equal. f_equal.
    apply list_filter_iff. intros bs. by rewrite Hden.
  - destruct Hr as (f&Hf&Hng). exists f. split; [done|]. by rewrite Hcov.
Qed.
Lemma truth_cover_spec s xs f : WF s -> NoDup xs -> live s f ->
  espec (truth_cover xs f) s (fun r s' =>
    match r with
    | Ok n => covers xs (den s f) /\ forall E, count_sat xs (den s f) E = n
    | Err => ~ covers xs (den s f)
    end).
Proof.
  intros W Hnd L.
  destruct (truth_cover_n_spec s xs [f] W Hnd) as (r&s'&E&W'&X'&Hr); [by apply Forall_singleton|].
  unfold espec, truth_cover_n, truth_cover, bind in *.
  destruct (collect_vars xs s) as [[vs s1]|]; [|done]. cbn [cover_list] in E.
  destruct (truth_cover_rec (S (length (ord s1))) s1 (sort_ord s1 vs) f ∅) as [[r1 dn1]|]; [|done].
  exists r1, s1. destruct r1 as [n|].
  - injection E as <- <-. apply Forall2_cons in Hr as [[? ?] _]. split_and!; done.
  - injection E as <- <-. split_and!; try done.
    destruct Hr as (g&->%elem_of_list_singleton&?). done.
Qed.
