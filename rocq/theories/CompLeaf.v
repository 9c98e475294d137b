(* A compiled design: its executions are the behaviours of its functions. *)
From Coq Require Import String List Arith ZArith Bool Lia Permutation.
From Verif Require Import FsmOps FsmRel FsmBool FsmWord SteModel SteSim CompModel CompSpec CompKind CompThms CompGrow CompExpr CompRank.
Import ListNotations.

(* ---------------------------------------------------------------------- *)
(* Left-hand sides *)
Lemma pick_ok v il : forallb (fun i => (0 <=? i)%Z && (i <? Z.of_nat (length v))%Z) il = true ->
  pick v il = Ret (map (fun i => nth (Z.to_nat i) (rev v) 0) il).
Proof.
  induction il as [|i il IH]; cbn [pick map forallb]; auto. intros H. apply andb_prop in H. destruct H as [H1 H2].
  apply andb_prop in H1. destruct H1 as [A B]. apply Z.leb_le in A. apply Z.ltb_lt in B.
  replace ((Z.of_nat (length v) - i - 1 <? 0)%Z) with false by (symmetry; apply Z.ltb_ge; lia).
  replace ((Z.of_nat (length v) <=? Z.of_nat (length v) - i - 1)%Z) with false by (symmetry; apply Z.leb_gt; lia).
  cbn [orb]. rewrite IH by auto. cbn [bind]. rewrite rev_nth by lia. do 3 f_equal. lia.
Qed.

Lemma is_lhs_all l : (fix all l := match l with [] => True | e :: l => is_lhs e /\ all l end) l <-> forall e, In e l -> is_lhs e.
Proof.
  induction l as [|e l IH]; [easy|]. rewrite IH. split.
  - intros [A B] e' [<-|H]; auto.
  - intros H. split; [apply H; now left|]. intros e' H'. apply H. now right.
Qed.

Lemma lhs_ok look e : is_lhs e -> forall n, width look e = Some n ->
  lhs look e = Ret (targets look e) /\ length (targets look e) = n /\
  forall x v, wsem look x e v <-> v = map x (targets look e).
Proof.
  induction e as [sz nm|k l IH] using wexpr_induct; intros I n W.
  - cbn in *. bools. repeat split; auto; lia.
  - cbn [is_lhs] in I. destruct I as [I1 I2]. rewrite is_lhs_all in I2.
    cbn [CompSpec.width] in W. destruct (somes (map (width look) l)) as [ws|] eqn:E; [|discriminate W].
    destruct k; try easy.
    + (* slice *)
      apply somes_map in E. destruct ws as [|a [|]]; try discriminate W. inversion E as [|e ? l' ? We E']; subst.
      inversion E'; subst. cbn [kwidth] in W. bools.
      destruct (IH e (or_introl eq_refl) (I2 e (or_introl eq_refl)) a We) as [L [N S]].
      cbn [lhs targets]. rewrite L. cbn [bind]. subst a. split; [now rewrite pick_ok by assumption|].
      split; [now rewrite map_length|]. intros x v. rewrite wsem_node. split.
      * intros [vals [F K]]. inversion F as [|? w ? ? Fe F']; subst. inversion F'; subst. apply S in Fe. subst w.
        cbn [ksem] in K. rewrite K. rewrite map_map. apply map_ext_in. intros i Hi.
        unfold bit.
        match goal with H : forallb _ _ = true |- _ => rewrite forallb_forall in H; specialize (H i Hi) end.
        bools. rewrite <- map_rev. rewrite (nth_indep (map x _) false (x 0)) by (rewrite map_length, rev_length; lia). now rewrite map_nth.
      * intros ->. exists [map x (targets look e)]. split; [repeat constructor; now apply S|]. cbn [ksem].
        rewrite map_map. apply map_ext_in. intros i Hi. unfold bit.
        match goal with H : forallb _ _ = true |- _ => rewrite forallb_forall in H; specialize (H i Hi) end.
        bools. rewrite <- map_rev. rewrite (nth_indep (map x _) false (x 0)) by (rewrite map_length, rev_length; lia). now rewrite map_nth.
    + (* concatenation *)
      assert (K : kwidth KCat ws = Some n) by exact W. clear W.
      assert (n = list_sum ws) by (unfold kwidth in K; destruct ws as [|w0 ws]; [discriminate|]; destruct (forallb (Nat.ltb 0) (w0 :: ws)); congruence). subst n. clear K.
      apply somes_map in E. cbn [lhs].
      replace (targets look (WNode KCat l)) with (flat_map (targets look) l) by reflexivity.
      assert (G : fold_right (fun e' r => bind (lhs look e') (fun v => bind r (fun w => Ret (v ++ w)))) (Ret []) l = Ret (flat_map (targets look) l) /\
        length (flat_map (targets look) l) = list_sum ws /\
        forall x vals, Forall2 (wsem look x) l vals <-> vals = map (fun e => map x (targets look e)) l).
      { clear I1. revert ws E. induction l as [|e l IHl]; intros ws E; inversion E as [|? w ? ws' We E']; subst.
        - repeat split; auto; [intros F; now inversion F|intros ->; constructor].
        - destruct (IH e (or_introl eq_refl) (I2 e (or_introl eq_refl)) w We) as [L [N S]].
          destruct (IHl (fun e H => IH e (or_intror H)) (fun e H => I2 e (or_intror H)) ws' E') as [L2 [N2 S2]].
          cbn [fold_right flat_map]. rewrite L2, L. cbn [bind]. split; [reflexivity|]. split; [rewrite app_length, N, N2; reflexivity|].
          intros x vals. split.
          + intros F. inversion F as [|? w' ? ? F1 F2]; subst. apply S in F1. apply S2 in F2. subst. reflexivity.
          + intros ->. constructor; [now apply S|]. now apply S2. }
      destruct G as [G1 [G2 G3]]. split; [exact G1|]. split; [exact G2|]. intros x v. rewrite wsem_node.
      assert (Q : concat (map (fun e => map x (targets look e)) l) = map x (flat_map (targets look) l)).
      { rewrite flat_map_concat_map, concat_map, map_map. reflexivity. }
      split.
      * intros [vals [F K]]. apply G3 in F. subst vals. cbn [ksem] in K. congruence.
      * intros ->. exists (map (fun e => map x (targets look e)) l). split; [now apply G3|]. cbn [ksem]. congruence.
Qed.

(* ---------------------------------------------------------------------- *)
(* The invariant *)
Definition owned (fs : list ((string -> list nat) * stmt)) : list nat :=
  flat_map (fun p => targets (fst p) (st_lhs (snd p))) fs.
Record inv (fs : list ((string -> list nat) * stmt)) (dn tmp : list nat) (s : cst) : Prop := Inv {
  i_part : forall n, n < s_nn s <-> In n dn \/ In n tmp;
  i_disj : forall n, In n dn -> ~ In n tmp;
  i_low : forall n, n < 4 -> In n dn;
  i_own : forall n, In n (owned fs) -> In n dn /\ 3 < n;
  i_outs : Permutation (flat_map c_outs (s_comps s)) (owned fs ++ tmp);
  i_nodup : NoDup (owned fs ++ tmp);
  i_drv : forall n k, s_drv s n = Some k <-> exists C, nth_error (s_comps s) k = Some C /\ In n (c_outs C);
  i_fan : forall k C n, nth_error (s_comps s) k = Some C -> In n (c_ins C) -> In k (s_fan s n);
  i_ins : forall C n, In C (s_comps s) -> In n (c_ins C) -> n < s_nn s /\ n <> 3;
  i_phase : forall C o, In C (s_comps s) -> c_phase C = true -> In o (c_outs C) ->
     exists look f, In (look, f) fs /\ st_phase f = true /\ In o (targets look (st_lhs f));
  i_lvl : forall level, levelled level fs -> forall M, s_nn s <= M -> exists lv,
     (forall n, ~ In n tmp -> lv n = S (level n) * S M) /\
     forall C i o, In C (s_comps s) -> c_phase C = false -> In i (c_ins C) -> In o (c_outs C) -> lv i < lv o;
  i_sound : forall x, all_hold (s_comps s) x -> forall look f, In (look, f) fs -> forall t,
     wsem look (x t) (st_rhs f) (map (x (shift (st_phase f) t)) (targets look (st_lhs f)));
  i_compl : forall x, (forall look f, In (look, f) fs -> forall t,
       wsem look (x t) (st_rhs f) (map (x (shift (st_phase f) t)) (targets look (st_lhs f)))) ->
     exists y, (forall t n, ~ In n tmp -> y t n = x t n) /\ all_hold (s_comps s) y }.

Lemma inv_out fs dn tmp s C n : inv fs dn tmp s -> In C (s_comps s) -> In n (c_outs C) -> 3 < n < s_nn s.
Proof.
  intros I HC Hn. assert (H : In n (owned fs ++ tmp)).
  { apply (Permutation_in _ (i_outs _ _ _ _ I)). apply in_flat_map. eauto. }
  apply in_app_iff in H. destruct H as [H|H].
  - pose proof (i_own _ _ _ _ I n H) as [A B]. split; auto. apply (i_part _ _ _ _ I). now left.
  - split; [|apply (i_part _ _ _ _ I); now right].
    destruct (Nat.lt_ge_cases 3 n); auto. exfalso. apply (i_disj _ _ _ _ I n); auto. apply (i_low _ _ _ _ I). lia.
Qed.

Lemma nth_error_split_app {A} (a b : list A) k C : nth_error (a ++ b) k = Some C ->
  nth_error a k = Some C \/ exists i, k = length a + i /\ nth_error b i = Some C.
Proof.
  intros H. destruct (Nat.lt_ge_cases k (length a)) as [L|L].
  - rewrite nth_error_app1 in H by assumption. now left.
  - rewrite nth_error_app2 in H by assumption. right. exists (k - length a). split; [lia|assumption].
Qed.

Lemma inv_start : inv [] const_nodes [] start.
Proof.
  split; cbn.
  - intros n. lia.
  - auto.
  - intros n H. lia.
  - easy.
  - constructor.
  - constructor.
  - intros n k. split; [easy|]. intros [C [H _]]. now destruct k.
  - intros k C n H. now destruct k.
  - easy.
  - easy.
  - intros level _ M _. exists (fun n => S (level n) * S M). split; auto. easy.
  - easy.
  - intros x _. exists x. split; auto. intros C [].
Qed.

Lemma inv_declare fs dn tmp s n : inv fs dn tmp s ->
  inv fs (dn ++ seq (s_nn s) n) tmp (CS (s_nn s + n) (s_comps s) (s_drv s) (s_fan s)).
Proof.
  intros I. split; cbn [s_nn s_comps s_drv s_fan]; try apply I.
  - intros k. pose proof (i_part _ _ _ _ I k) as P. rewrite in_app_iff, in_seq. split.
    + intros L. destruct (Nat.lt_ge_cases k (s_nn s)); [tauto|]. left. right. lia.
    + intros [[H|H]|H]; [|lia|]; enough (k < s_nn s) by lia; tauto.
  - intros k H H'. rewrite in_app_iff, in_seq in H. destruct H as [H|H].
    + now apply (i_disj _ _ _ _ I k).
    + enough (k < s_nn s) by lia. apply (i_part _ _ _ _ I). now right.
  - intros k H. apply in_app_iff. left. now apply (i_low _ _ _ _ I).
  - intros k H. rewrite in_app_iff. pose proof (i_own _ _ _ _ I k H). tauto.
  - intros C k HC Hk. pose proof (i_ins _ _ _ _ I C k HC Hk). lia.
  - intros level LV M HM. apply (i_lvl _ _ _ _ I); auto. lia.
Qed.

Lemma lmax_in (f : nat -> nat) l v : In v l -> f v <= list_max (map f l).
Proof.
  intros H. pose proof (list_max_le (map f l) (list_max (map f l))) as [A _].
  specialize (A (le_n _)). rewrite Forall_forall in A. apply A. now apply in_map.
Qed.
Lemma lmax_le (f : nat -> nat) l b : (forall v, In v l -> f v <= b) -> list_max (map f l) <= b.
Proof.
  intros H. apply list_max_le. apply Forall_forall. intros k Hk. apply in_map_iff in Hk. destruct Hk as [v [<- Hv]]. auto.
Qed.

Lemma inv_step accurate fs dn tmp s look f : inv fs dn tmp s -> fn_ok dn look f ->
  single_drivers (fs ++ [(look, f)]) ->
  exists s', bind (lhs look (st_lhs f)) (fun o => compile look accurate (st_rhs f) o (st_phase f) s) = Ret s' /\
    inv (fs ++ [(look, f)]) dn (tmp ++ seq (s_nn s) (s_nn s' - s_nn s)) s'.
Proof.
  intros I [L1 [[w [W1 W2]] [RO [NP [ND TD]]]]] SD.
  destruct (lhs_ok look (st_lhs f) L1 w W1) as [E1 [E2 _]]. rewrite E1. cbn [bind].
  set (outs := targets look (st_lhs f)) in *. set (vars := nodes_of look (st_rhs f)) in *. rewrite <- E2 in W2.
  assert (DN : forall n, In n dn -> n < s_nn s) by (intros n H; apply (i_part _ _ _ _ I); now left).
  destruct (compile_ok look accurate (st_rhs f) RO outs (st_phase f) s W2) as [s' [news [C1 [G [P1 [P2 [SN CP]]]]]]].
  { intros n H. apply DN. now apply ND. }
  { intros n H. apply DN. now apply TD. }
  { exact NP. }
  exists s'. split; [exact C1|]. clear C1 E1 W1 RO NP L1.
  assert (OA : owned (fs ++ [(look, f)]) = owned fs ++ outs).
  { unfold owned. rewrite flat_map_app. cbn [flat_map]. now rewrite app_nil_r. }
  pose proof (g_nn _ _ _ _ _ G) as NN. pose proof (g_comps _ _ _ _ _ G) as CM. pose proof (g_outs _ _ _ _ _ G) as GO.
  set (ts := seq (s_nn s) (s_nn s' - s_nn s)) in *.
  assert (TS : forall n, In n ts <-> s_nn s <= n < s_nn s') by (intros n; unfold ts; rewrite in_seq; lia).
  assert (PERM : Permutation (flat_map c_outs (s_comps s')) (owned (fs ++ [(look, f)]) ++ tmp ++ ts)).
  { rewrite CM, flat_map_app, OA.
    transitivity ((owned fs ++ tmp) ++ (outs ++ ts)); [apply Permutation_app; [apply I|exact GO]|].
    rewrite <- !app_assoc. apply Permutation_app_head. rewrite !app_assoc. apply Permutation_app_tail, Permutation_app_comm. }
  assert (NDP : NoDup (owned (fs ++ [(look, f)]) ++ tmp ++ ts)).
  { unfold single_drivers in SD. fold (owned (fs ++ [(look, f)])) in SD.
    assert (Ndt : NoDup tmp).
    { pose proof (i_nodup _ _ _ _ I) as H. revert H. clear. induction (owned fs); cbn; auto. intros H. inversion H; auto. }
    assert (Nts : NoDup (tmp ++ ts)).
    {       revert Ndt. assert (D : forall n, In n tmp -> ~ In n ts).
      { intros n H. rewrite TS. enough (n < s_nn s) by lia. apply (i_part _ _ _ _ I). now right. }
      clear - D. revert D. induction tmp as [|a l IH]; cbn; intros D N; [apply seq_NoDup|]. inversion N; subst.
      constructor; [|apply IH; auto]. rewrite in_app_iff. intros [H|H]; auto. apply (D a); auto. }
    assert (D : forall n, In n (owned (fs ++ [(look, f)])) -> ~ In n (tmp ++ ts)).
    { intros n H. assert (In n dn). { rewrite OA, in_app_iff in H. destruct H as [H|H]; [now apply (i_own _ _ _ _ I)|now apply TD]. }
      rewrite in_app_iff, TS. intros [H'|H']; [now apply (i_disj _ _ _ _ I n)|]. apply DN in H0. lia. }
    revert SD D. generalize (owned (fs ++ [(look, f)])). clear - Nts. intros l. induction l as [|a l IH]; cbn; auto. intros N D. inversion N; subst.
    constructor; [|apply IH; auto]. rewrite in_app_iff. intros [H|H]; auto. apply (D a); auto. }
  assert (OUT : NoDup (flat_map c_outs (s_comps s'))) by (eapply Permutation_NoDup; [symmetry; exact PERM|exact NDP]).
  assert (OLDNEW : forall n, In n (flat_map c_outs (s_comps s)) -> ~ In n (flat_map c_outs news)).
  { rewrite CM, flat_map_app in OUT. revert OUT. generalize (flat_map c_outs (s_comps s)). intros l. induction l as [|a l IH]; cbn; [easy|].
    intros N n [->|H]; inversion N; subst; auto. intros H. apply H1. apply in_app_iff. now right. }
  split.
  - intros n. rewrite in_app_iff, TS. pose proof (i_part _ _ _ _ I n) as P. split.
    + intros H. destruct (Nat.lt_ge_cases n (s_nn s)); [tauto|]. right. right. lia.
    + intros [H|[H|H]]; [|..]; try lia; enough (n < s_nn s) by lia; tauto.
  - intros n H. rewrite in_app_iff, TS. intros [H'|H']; [now apply (i_disj _ _ _ _ I n)|]. apply DN in H. lia.
  - apply I.
  - intros n H. rewrite OA, in_app_iff in H. destruct H as [H|H]; [now apply (i_own _ _ _ _ I)|now apply TD].
  - exact PERM.
  - exact NDP.
  - intros n k. destruct (in_dec Nat.eq_dec n (flat_map c_outs news)) as [H|H].
    + assert (NO : ~ In n (flat_map c_outs (s_comps s))) by (intros H'; exact (OLDNEW n H' H)).
      apply in_flat_map in H. destruct H as [C [HC Hn]]. apply In_nth_error in HC. destruct HC as [i Hi].
      rewrite (g_drv1 _ _ _ _ _ G i C n Hi Hn). rewrite CM. split.
      * intros Q. injection Q as <-. exists C. split; auto. rewrite nth_error_app2 by lia. now replace (length (s_comps s) + i - length (s_comps s)) with i by lia.
      * intros [D [HD Hd]]. apply nth_error_split_app in HD. destruct HD as [HD|[j [-> Hj]]].
        -- exfalso. apply NO. apply in_flat_map. exists D. split; auto. now apply nth_error_In in HD.
        -- pose proof (g_drv1 _ _ _ _ _ G j D n Hj Hd) as Q. pose proof (g_drv1 _ _ _ _ _ G i C n Hi Hn). congruence.
    + rewrite (g_drv2 _ _ _ _ _ G n H), CM. rewrite (i_drv _ _ _ _ I n k). split; intros [C [HC Hn]].
      * exists C. split; auto. rewrite nth_error_app1; auto. apply nth_error_Some. congruence.
      * apply nth_error_split_app in HC. destruct HC as [HC|[j [-> Hj]]]; eauto.
        exfalso. apply H. apply in_flat_map. exists C. split; auto. now apply nth_error_In in Hj.
  - intros k C n HC Hn. rewrite CM in HC. apply nth_error_split_app in HC. destruct HC as [HC|[j [-> Hj]]].
    + apply (g_fan1 _ _ _ _ _ G). now apply (i_fan _ _ _ _ I k C n).
    + now apply (g_fan2 _ _ _ _ _ G j C n).
  - intros C n HC Hn. rewrite CM, in_app_iff in HC. destruct HC as [HC|HC].
    + pose proof (i_ins _ _ _ _ I C n HC Hn). lia.
    + destruct (g_ins _ _ _ _ _ G C n HC Hn) as [H|H].
      * destruct (ND n H) as [H1 H2]. apply DN in H1. lia.
      * assert (3 < s_nn s) by (apply DN, (i_low _ _ _ _ I); lia). lia.
  - intros C o HC PC Ho. rewrite CM, in_app_iff in HC. destruct HC as [HC|HC].
    + destruct (i_phase _ _ _ _ I C o HC PC Ho) as [lk [g [H1 H2]]]. exists lk, g. split; auto. apply in_app_iff. now left.
    + destruct (P1 C HC PC) as [Q1 Q2]. exists look, f. split; [apply in_app_iff; right; now left|]. split; [exact Q1|].
      rewrite Q2 in Ho. exact Ho.
  - intros level LV M HM.
    destruct (i_lvl _ _ _ _ I level) with (M := M) as [lv [A B]]; [|lia|].
    { intros look' f' H. apply LV. apply in_app_iff. now left. }
    set (mv := list_max (map (fun v => S (level v)) vars)).
    exists (fun n => if (s_nn s <=? n) && (n <? s_nn s') then mv * S M + (M - n) else lv n).
    assert (INN : forall n, In n ts -> (s_nn s <=? n) && (n <? s_nn s') = true).
    { intros n H. apply TS in H. apply andb_true_intro. split; [apply Nat.leb_le|apply Nat.ltb_lt]; lia. }
    assert (OUTT : forall n, n < s_nn s -> (s_nn s <=? n) && (n <? s_nn s') = false).
    { intros n H. apply andb_false_intro1. apply Nat.leb_gt. lia. }
    assert (DV : forall n, In n dn -> (if (s_nn s <=? n) && (n <? s_nn s') then mv * S M + (M - n) else lv n) = S (level n) * S M).
    { intros n H. rewrite (OUTT n) by auto. apply A. now apply (i_disj _ _ _ _ I). }
    split.
    { intros n H. rewrite in_app_iff in H. destruct ((s_nn s <=? n) && (n <? s_nn s')) eqn:Q; [|apply A; tauto].
      exfalso. apply H. right. apply TS. apply andb_prop in Q. destruct Q as [Q1 Q2]. apply Nat.leb_le in Q1. apply Nat.ltb_lt in Q2. lia. }
    intros C i o HC PC Hi Ho. rewrite CM, in_app_iff in HC. destruct HC as [HC|HC].
    { pose proof (i_ins _ _ _ _ I C i HC Hi) as [Li _]. pose proof (inv_out _ _ _ _ C o I HC Ho) as [_ Lo].
      rewrite (OUTT i), (OUTT o) by assumption. eapply B; eauto. }
    assert (IO : In o outs \/ In o ts).
    { apply in_app_iff. apply (Permutation_in _ GO). apply in_flat_map. eauto. }
    assert (LVs : In o outs -> st_phase f = false).
    { intros H. rewrite <- (P2 C o HC H Ho). exact PC. }
    assert (LT : forall v, In o outs -> In v vars -> level v < level o).
    { intros v H Hv. apply (LV look f); auto. apply in_app_iff. right. now left. }
    assert (MV : In o outs -> mv <= level o).
    { intros H. apply lmax_le. intros v Hv. apply LT; auto. }
    destruct (in_dec Nat.eq_dec i vars) as [Hv|Hv].
    + rewrite (DV i) by (now apply ND). destruct IO as [H|H].
      * rewrite (DV o) by (now apply TD). pose proof (LT i H Hv). nia.
      * rewrite (INN o H). assert (S (level i) <= mv) by (apply (lmax_in (fun v => S (level v))); exact Hv). apply TS in H. nia.
    + assert (Ti : In i ts). { apply TS. destruct (g_ins _ _ _ _ _ G C i HC Hi); tauto. }
      rewrite (INN i Ti). destruct (in_dec Nat.eq_dec o outs) as [H|H].
      * rewrite (DV o) by (now apply TD). specialize (MV H). nia.
      * destruct IO as [|To]; [tauto|]. rewrite (INN o To). destruct (g_lvl _ _ _ _ _ G C i o HC Hi Ho) as [|[|Q]]; try tauto.
        apply TS in Ti, To. lia.
  - intros x H look' f' HI t. rewrite in_app_iff in HI. destruct HI as [HI|[Q|[]]].
    + apply (i_sound _ _ _ _ I); auto. intros C HC. apply H. rewrite CM. apply in_app_iff. now left.
    + injection Q as <- <-. apply SN. intros C HC. apply H. rewrite CM. apply in_app_iff. now right.
  - intros x H. destruct (i_compl _ _ _ _ I x) as [y1 [Y1 Y2]].
    { intros look' f' HI. apply H. apply in_app_iff. now left. }
    destruct (CP y1) as [y [Z1 Z2]].
    { intros t. replace (map (y1 (shift (st_phase f) t)) outs) with (map (x (shift (st_phase f) t)) outs).
      - apply wsem_ext with (x := x t); [|apply (H look f); apply in_app_iff; right; now left].
        intros n Hn. symmetry. apply Y1. apply (i_disj _ _ _ _ I). now apply ND.
      - apply map_ext_in. intros n Hn. symmetry. apply Y1. apply (i_disj _ _ _ _ I). now apply TD. }
    exists y. split.
    + intros t n Hn. rewrite in_app_iff, TS in Hn. rewrite Z1 by lia. apply Y1. tauto.
    + intros C HC. rewrite CM, in_app_iff in HC. destruct HC as [HC|HC]; [|now apply Z2].
      apply holds_ext with (x := y1); [|now apply Y2]. intros t n [Hn|Hn]; symmetry; apply Z1.
      * pose proof (i_ins _ _ _ _ I C n HC Hn). lia.
      * pose proof (inv_out _ _ _ _ C n I HC Hn). lia.
Qed.

Lemma single_prefix a b : single_drivers (a ++ b) -> single_drivers a.
Proof.
  unfold single_drivers. rewrite flat_map_app. generalize (flat_map (fun p => targets (fst p) (st_lhs (snd p))) b) as r.
  generalize (flat_map (fun p => targets (fst p) (st_lhs (snd p))) a) as l. clear.
  intros l r. induction l as [|x l IH]; cbn; intros H; [constructor|]. inversion H; subst. constructor; auto.
  intros Q. apply H2. apply in_app_iff. now left.
Qed.

Lemma inv_leaf accurate look l : forall fs dn tmp s, inv fs dn tmp s -> (forall f, In f l -> fn_ok dn look f) ->
  single_drivers (fs ++ map (pair look) l) ->
  exists s' tmp', compile_leaf look accurate l s = Ret s' /\ inv (fs ++ map (pair look) l) dn tmp' s'.
Proof.
  induction l as [|f l IH]; intros fs dn tmp s I OK SD.
  - exists s, tmp. cbn. now rewrite app_nil_r.
  - assert (E : fs ++ map (pair look) (f :: l) = (fs ++ [(look, f)]) ++ map (pair look) l) by (cbn; now rewrite <- app_assoc).
    rewrite E in SD |- *.
    destruct (inv_step accurate fs dn tmp s look f I (OK f (or_introl eq_refl)) (single_prefix _ _ SD)) as [s1 [C1 I1]].
    destruct (IH _ _ _ _ I1 (fun g H => OK g (or_intror H)) SD) as [s2 [tmp2 [C2 I2]]].
    exists s2, tmp2. split; [|exact I2]. cbn [compile_leaf].
    destruct (lhs look (st_lhs f)) as [o| |]; try discriminate C1. cbn [bind] in C1 |- *. rewrite C1. exact C2.
Qed.

Lemma inv_items accurate l : forall fs dn tmp s, inv fs dn tmp s -> placed accurate l dn s ->
  single_drivers (fs ++ fns l) ->
  exists dn' s' tmp', compile_items accurate l dn s = Ret (dn', s') /\ inv (fs ++ fns l) dn' tmp' s'.
Proof.
  induction l as [|[n|look g] l IH]; intros fs dn tmp s I P SD.
  - exists dn, s, tmp. cbn. now rewrite app_nil_r.
  - cbn [compile_items placed] in *. apply (IH fs _ tmp); auto. now apply inv_declare.
  - cbn [compile_items placed] in *. destruct P as [OK P].
    assert (E : fs ++ fns (Leaf look g :: l) = (fs ++ map (pair look) g) ++ fns l) by (unfold fns; cbn; now rewrite <- app_assoc).
    rewrite E in SD |- *.
    destruct (inv_leaf accurate look g fs dn tmp s I OK (single_prefix _ _ SD)) as [s1 [tmp1 [C1 I1]]].
    rewrite C1. cbn [bind]. apply (IH _ _ tmp1); auto.
Qed.

(* ---------------------------------------------------------------------- *)
(* The circuit *)
Lemma nodup_flat {A} (f : A -> list nat) l C : NoDup (flat_map f l) -> In C l -> NoDup (f C).
Proof.
  induction l as [|a l IH]; cbn; [easy|]. intros N [->|H].
  - revert N. generalize (flat_map f l). generalize (f C). clear. intros a b. induction a; cbn; [constructor|].
    intros N. inversion N; subst. constructor; auto. intros H. apply H1. apply in_app_iff. now left.
  - apply IH; auto. revert N. generalize (f a). clear. intros a. induction a; cbn; auto. intros N. inversion N; auto.
Qed.

Lemma inv_wf fs dn tmp s : inv fs dn tmp s -> (exists level, levelled level fs) -> wf (to_net s).
Proof.
  intros I [level LV]. split.
  - intros n k H. cbn [driver to_net] in H. apply (i_drv _ _ _ _ I) in H. destruct H as [C [HC Hn]].
    destruct (to_net_cmp s k) as [[D [r [HD [_ ->]]]]|[L _]].
    + replace D with C by congruence. exact Hn.
    + assert (k < length (s_comps s)) by (apply nth_error_Some; congruence). lia.
  - intros n k H. destruct (to_net_cmp s k) as [[D [r [HD [_ E]]]]|[_ E]]; rewrite E in H; [|easy].
    cbn [c_outs ranked] in H. split; [apply (i_drv _ _ _ _ I); eauto|]. apply nth_error_In in HD.
    apply (inv_out _ _ _ _ D n I HD H).
  - intros k. destruct (to_net_cmp s k) as [[D [r [HD [_ E]]]]|[_ E]]; rewrite E; [|constructor].
    apply nth_error_In in HD. apply (nodup_flat c_outs (s_comps s) D); auto.
    eapply Permutation_NoDup; [symmetry; apply (i_outs _ _ _ _ I)|apply (i_nodup _ _ _ _ I)].
  - intros n k H. destruct (to_net_cmp s k) as [[D [r [HD [_ E]]]]|[_ E]]; rewrite E in H; [|easy].
    apply (i_fan _ _ _ _ I k D n HD H).
  - intros n k H. destruct (to_net_cmp s k) as [[D [r [HD [_ E]]]]|[_ E]]; rewrite E in H; [|easy].
    apply nth_error_In in HD. apply (i_ins _ _ _ _ I D n HD H).
  - intros k. destruct (to_net_cmp s k) as [[D [r [_ [L E]]]]|[_ E]]; rewrite E; cbn; [exact L|lia].
  - destruct (i_lvl _ _ _ _ I level LV (s_nn s) (le_n _)) as [lv [_ B]]. exists lv. intros k i o P Hi Ho.
    destruct (to_net_cmp s k) as [[D [r [HD [_ E]]]]|[_ E]]; rewrite E in *; [|easy].
    apply nth_error_In in HD. exact (B D i o HD P Hi Ho).
Qed.

Lemma exec_holds s x : execution (to_net s) x <->
  (forall t, x t 0 = false /\ x t 1 = true) /\ all_hold (s_comps s) x.
Proof.
  unfold execution. split; intros [A B]; split; auto.
  - intros C HC t i Li. rewrite map_length in Li. apply In_nth_error in HC. destruct HC as [k Hk].
    destruct (to_net_cmp s k) as [[D [r [HD [_ E]]]]|[L _]].
    2:{ assert (k < length (s_comps s)) by (apply nth_error_Some; congruence). lia. }
    assert (D = C) by congruence. subst D.
    destruct (nth_error (c_outs C) i) as [o|] eqn:O; [|apply nth_error_None in O; lia].
    specialize (B k t i o). rewrite E in B. specialize (B O). cbn [ranked c_op c_size c_ins c_phase] in B.
    replace (nth i (map (x (shift (c_phase C) t)) (c_outs C)) false) with (x (shift (c_phase C) t) o); [exact B|].
    rewrite (nth_indep _ false (x (shift (c_phase C) t) 0)) by (rewrite map_length; lia). rewrite map_nth.
    now rewrite (nth_error_nth _ _ 0 O).
  - intros k t i o O. destruct (to_net_cmp s k) as [[D [r [HD [_ E]]]]|[_ E]]; rewrite E in O |- *; [|now destruct i].
    cbn [ranked c_op c_size c_ins c_outs c_phase] in *. apply nth_error_In in HD.
    assert (Li : i < length (c_outs D)) by (apply nth_error_Some; congruence).
    specialize (B D HD t i). rewrite map_length in B. specialize (B Li).
    rewrite (nth_indep _ false (x (shift (c_phase D) t) 0)) in B by (rewrite map_length; lia). rewrite map_nth in B.
    now rewrite (nth_error_nth _ _ 0 O) in B.
Qed.

Lemma behaviour_targets fs x : (forall look f, In (look, f) fs -> is_lhs (st_lhs f) /\ exists n, width look (st_lhs f) = Some n) ->
  ((forall look f, In (look, f) fs -> forall t,
      wsem look (x t) (st_rhs f) (map (x (shift (st_phase f) t)) (targets look (st_lhs f)))) <->
   (forall look f, In (look, f) fs -> forall t, exists v,
      wsem look (x t) (st_rhs f) v /\ wsem look (x (if st_phase f then t + 1 else t)%Z) (st_lhs f) v)).
Proof.
  intros W. split; intros H look f HI t; destruct (W look f HI) as [IL [n Wn]];
  destruct (lhs_ok look (st_lhs f) IL n Wn) as [_ [_ S]].
  - eexists. split; [apply (H look f HI t)|]. now apply S.
  - destruct (H look f HI t) as [v [A B]]. apply S in B. subst v. exact A.
Qed.

Lemma placed_fns accurate l : forall dn s fs tmp, inv fs dn tmp s -> single_drivers (fs ++ fns l) -> placed accurate l dn s ->
  forall look f, In (look, f) (fns l) -> is_lhs (st_lhs f) /\ exists n, width look (st_lhs f) = Some n.
Proof.
  induction l as [|[n|lk g] l IH]; intros dn s fs tmp I SD P look f H; [easy|..].
  - cbn [placed] in P. refine (IH _ _ fs tmp _ SD P look f H). now apply inv_declare.
  - cbn [placed] in P. destruct P as [OK P].
    assert (E : fs ++ fns (Leaf lk g :: l) = (fs ++ map (pair lk) g) ++ fns l) by (unfold fns; cbn; now rewrite <- app_assoc).
    rewrite E in SD.
    destruct (inv_leaf accurate lk g fs dn tmp s I OK (single_prefix _ _ SD)) as [s1 [tmp1 [C1 I1]]].
    change (fns (Leaf lk g :: l)) with (map (pair lk) g ++ fns l) in H.
    rewrite in_app_iff in H. destruct H as [H|H].
    + apply in_map_iff in H. destruct H as [f' [Q H]]. injection Q as <- <-. destruct (OK f' H) as [A [[n [B _]] _]]. eauto.
    + exact (IH dn s1 _ tmp1 I1 SD (P s1 C1) look f H).
Qed.

Lemma compile_items_ok accurate l :
  placed accurate l const_nodes start -> single_drivers (fns l) -> (exists level, levelled level (fns l)) ->
  exists dn s, compile_items accurate l const_nodes start = Ret (dn, s) /\ wf (to_net s) /\
    (forall n, In n dn -> n < nn (to_net s)) /\
    (forall n k, driver (to_net s) n = Some k -> c_phase (cmp (to_net s) k) = true ->
       exists look f, In (look, f) (fns l) /\ st_phase f = true /\ In n (targets look (st_lhs f))) /\
    (forall x, execution (to_net s) x -> behaviour (fns l) x) /\
    (forall x, behaviour (fns l) x -> exists y, execution (to_net s) y /\ forall t n, In n dn -> y t n = x t n).
Proof.
  intros P SD LV.
  destruct (inv_items accurate l [] const_nodes [] start inv_start P SD) as [dn [s [tmp [C I]]]]. cbn [app] in I.
  exists dn, s. split; [exact C|]. split; [now apply (inv_wf _ _ _ _ I)|].
  pose proof (placed_fns accurate l const_nodes start [] [] inv_start SD P) as WF.
  split; [intros n H; apply (i_part _ _ _ _ I); now left|]. split; [|split].
  - intros n k H PK. cbn [driver to_net] in H. apply (i_drv _ _ _ _ I) in H. destruct H as [D [HD Hn]].
    destruct (to_net_cmp s k) as [[D' [r [HD' [_ E]]]]|[_ E]]; rewrite E in PK; [|discriminate].
    assert (D' = D) by congruence. subst D'. apply nth_error_In in HD. apply (i_phase _ _ _ _ I D n HD PK Hn).
  - intros x H. apply exec_holds in H. destruct H as [A B]. split; auto. apply behaviour_targets; auto.
    now apply (i_sound _ _ _ _ I).
  - intros x [A B0]. pose proof (proj2 (behaviour_targets _ x WF) B0) as B.
    destruct (i_compl _ _ _ _ I x B) as [y [Y1 Y2]]. exists y. split.
    + apply exec_holds. split; auto. intros t.
      rewrite !Y1; [apply A|apply (i_disj _ _ _ _ I), (i_low _ _ _ _ I); lia..].
    + intros t n H. apply Y1. now apply (i_disj _ _ _ _ I).
Qed.
