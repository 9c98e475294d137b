(* compile_expr: the composites for an expression admit exactly its values. *)
From Coq Require Import String List Arith ZArith Bool Lia Permutation.
From Verif Require Import FsmOps FsmRel FsmBool FsmWord SteModel SteSim CompModel CompSpec CompKind CompThms CompGrow.
Import ListNotations.


Section Expr.
Variable look : string -> list nat.
Variable accurate : bool.
Local Notation compile := (compile look accurate).
Local Notation wsem := (wsem look).
Local Notation width := (width look).
Local Notation nodes_of := (nodes_of look).

Definition all_hold (news : list comp) (x : Z -> nat -> bool) : Prop := forall C, In C news -> holds C x.
Definition same_outside (a b : nat) (x y : Z -> nat -> bool) : Prop := forall t n, n < a \/ b <= n -> y t n = x t n.

Definition compile_spec (e : wexpr) : Prop := reads_ok e ->
  forall outs pd s, width e = Some (length outs) ->
  (forall n, In n (nodes_of e) -> n < s_nn s) -> (forall n, In n outs -> n < s_nn s) ->
  (pd = true -> no_pred e) ->
  exists s' news, compile e outs pd s = Ret s' /\ grows s s' outs (nodes_of e) news /\
    (forall C, In C news -> c_phase C = true -> pd = true /\ c_outs C = outs) /\
    (forall C o, In C news -> In o outs -> In o (c_outs C) -> c_phase C = pd) /\
    (forall x, all_hold news x -> forall t, wsem (x t) e (map (x (shift pd t)) outs)) /\
    (forall x, (forall t, wsem (x t) e (map (x (shift pd t)) outs)) ->
       exists y, same_outside (s_nn s) (s_nn s') x y /\ all_hold news y).

Lemma var_ok sz nm : compile_spec (WVar sz nm).
Proof.
  intros _ outs pd s W LV LO NP. cbn [CompSpec.width] in W. bools.
  set (C := Comp OWire sz (look nm) outs pd 0).
  assert (HC : forall x, holds C x <-> forall t, wsem (x t) (WVar sz nm) (map (x (shift pd t)) outs)).
  { intros x. unfold holds. cbn [C c_op c_size c_ins c_outs c_phase CompSpec.wsem]. split; intros H' t; specialize (H' t).
    - revert H'. apply admits_enc; [apply op_var_enc; now rewrite map_length|]. rewrite !map_length. lia.
    - revert H'. apply admits_enc; [apply op_var_enc; now rewrite map_length|]. rewrite !map_length. lia. }
  eexists. exists [C]. split; [reflexivity|]. split; [|split; [|split; [|split]]].
  - apply grows_node with (C0 := Comp OWire sz [] outs pd 0); auto. apply grows_refl.
  - intros D [<-|[]]. cbn. auto.
  - intros D o [<-|[]] _ _. reflexivity.
  - intros x A. apply HC. apply A. now left.
  - intros x A. exists x. split; [intros t n _; reflexivity|]. intros D [<-|[]]. now apply HC.
Qed.

Lemma arg_ok e w : compile_spec e -> reads_ok e -> width e = Some w ->
  forall s, (forall n, In n (nodes_of e) -> n < s_nn s) ->
  exists i s' news, arg look e (fun o s => compile e o false s) w s = Ret (i, s') /\
    grows s s' [] (nodes_of e) news /\ length i = w /\
    (forall n, In n i -> In n (nodes_of e) \/ s_nn s <= n < s_nn s') /\
    (forall C, In C news -> c_phase C = false) /\
    (forall x, all_hold news x -> forall t, wsem (x t) e (map (x t) i)) /\
    (forall x v, (forall t, wsem (x t) e (v t)) ->
       exists y, same_outside (s_nn s) (s_nn s') x y /\ all_hold news y /\ forall t, map (y t) i = v t).
Proof.
  intros SP R W s LV. destruct e as [sz nm|k l].
  - exists (look nm), s, []. cbn [arg]. split; [reflexivity|]. split; [apply grows_refl|].
    cbn [CompSpec.width] in W. bools. split; [lia|]. split; [now left|]. split; [easy|]. split.
    + intros x _ t. reflexivity.
    + intros x v H'. exists x. split; [intros t n _; reflexivity|]. split; [easy|]. intros t. symmetry. apply H'.
  - set (e := WNode k l) in *. pose proof (width_pos look e w W) as P.
    assert (DS : dsize w = w) by (unfold dsize; now destruct (Nat.eqb_spec w 0); [lia|]).
    destruct (SP R (fst (declare w s)) false (snd (declare w s))) as [s' [news [E [G [PH [_ [SN CP]]]]]]].
    + cbn. now rewrite seq_length, DS.
    + intros n Hn. specialize (LV n Hn). cbn. lia.
    + intros n Hn. apply in_seq in Hn. cbn. lia.
    + discriminate.
    + exists (fst (declare w s)), s', news. split.
      { change (bind (compile e (fst (declare w s)) false (snd (declare w s))) (fun s2 => Ret (fst (declare w s), s2)) =
          Ret (fst (declare w s), s')). now rewrite E. }
      pose proof (g_nn _ _ _ _ _ G) as N. cbn [declare snd s_nn] in N.
      split; [eapply grows_declare; eauto|]. split; [cbn; now rewrite seq_length, DS|].
      split; [intros n Hn; apply in_seq in Hn; right; lia|].
      split.
      { intros C HC. destruct (c_phase C) eqn:Q; auto. destruct (PH C HC Q). discriminate. }
      split; [intros x A t; apply (SN x A t)|].
      intros x v H.
      pose (x1 := fun t n => if (s_nn s <=? n) && (n <? s_nn s + w) then nth (n - s_nn s) (v t) false else x t n).
      assert (X1 : forall t, map (x1 t) (fst (declare w s)) = v t).
      { intros t. pose proof (wsem_length look (x t) e w (v t) W (H t)) as L. cbn [declare fst]. rewrite DS.
        apply (nth_ext _ _ (x1 t 0) false); rewrite map_length, seq_length; auto. intros i Li.
        rewrite map_nth. rewrite seq_nth by assumption. unfold x1.
        replace (s_nn s <=? s_nn s + i) with true by (symmetry; apply Nat.leb_le; lia).
        replace (s_nn s + i <? s_nn s + w) with true by (symmetry; apply Nat.ltb_lt; lia). cbn [andb]. f_equal. lia. }
      assert (V1 : forall t n, n < s_nn s -> x1 t n = x t n).
      { intros t n L. unfold x1. replace (s_nn s <=? n) with false; [reflexivity|]. symmetry. apply Nat.leb_gt. lia. }
      destruct (CP x1) as [y [SO AH]].
      { intros t. cbn [shift]. rewrite X1. eapply wsem_ext; [|apply H]. intros n Hn. symmetry. apply V1. auto. }
      cbn [declare snd s_nn] in SO. rewrite DS in SO, N. exists y. split; [|split; auto].
      * intros t n L. rewrite SO by lia. destruct L as [L|L]; [now apply V1|]. unfold x1.
        replace (n <? s_nn s + w) with false; [now rewrite andb_false_r|]. symmetry. apply Nat.ltb_ge. lia.
      * intros t. rewrite <- X1. apply map_ext_in. intros n Hn. cbn [declare fst] in Hn. rewrite DS in Hn. apply in_seq in Hn.
        apply SO. lia.
Qed.

Lemma run_ok l : (forall e, In e l -> compile_spec e /\ reads_ok e) ->
  forall ws, Forall2 (fun e w => width e = Some w) l ws ->
  forall s, (forall n, In n (flat_map nodes_of l) -> n < s_nn s) ->
  exists is s' news,
    run (combine (map (fun e => arg look e (fun o s => compile e o false s)) l) ws) s = Ret (is, s') /\
    grows s s' [] (flat_map nodes_of l) news /\ map (@length nat) is = ws /\
    (forall n, In n (concat is) -> In n (flat_map nodes_of l) \/ s_nn s <= n < s_nn s') /\
    (forall C, In C news -> c_phase C = false) /\
    (forall x, all_hold news x -> forall t, Forall2 (wsem (x t)) l (map (map (x t)) is)) /\
    (forall x vals, (forall t, Forall2 (wsem (x t)) l (vals t)) ->
       exists y, same_outside (s_nn s) (s_nn s') x y /\ all_hold news y /\ forall t, map (map (y t)) is = vals t).
Proof.
  induction l as [|e l IH]; intros SP ws F s LV; inversion F; subst.
  - exists [], s, []. cbn. split; [reflexivity|]. split; [apply grows_refl|]. split; [reflexivity|]. split; [easy|].
    split; [easy|]. split; [constructor|].
    intros x vals H. exists x. split; [intros t n _; reflexivity|]. split; [easy|]. intros t. specialize (H t). now inversion H.
  - rename y into w. rename l' into ws. cbn [flat_map] in LV.
    destruct (SP e (or_introl eq_refl)) as [SPe Re].
    destruct (arg_ok e w SPe Re ltac:(assumption) s) as [i [s1 [n1 [E1 [G1 [L1 [I1 [P1 [S1 C1]]]]]]]]].
    { intros n Hn. apply LV, in_or_app. auto. }
    pose proof (g_nn _ _ _ _ _ G1) as N1.
    destruct (IH (fun e' H => SP e' (or_intror H)) ws ltac:(assumption) s1) as [is [s2 [n2 [E2 [G2 [L2 [I2 [P2 [S2 C2]]]]]]]]].
    { intros n Hn. assert (n < s_nn s) by (apply LV, in_or_app; auto). lia. }
    pose proof (g_nn _ _ _ _ _ G2) as N2.
    exists (i :: is), s2, (n1 ++ n2). split; [cbn [map combine run]; rewrite E1; cbn [bind]; rewrite E2; reflexivity|].
    split; [apply (grows_app _ _ _ [] [] _ _ _ _ G1 G2); easy|]. split; [cbn; now rewrite L1, L2|].
    split.
    { cbn [concat flat_map]. intros n Hn. apply in_app_or in Hn as [Hn|Hn].
      - destruct (I1 n Hn); [left; apply in_or_app; auto|right; lia].
      - destruct (I2 n Hn); [left; apply in_or_app; auto|right; lia]. }
    split; [intros C HC; apply in_app_or in HC as [HC|HC]; auto|].
    split.
    { intros x A t. cbn [map]. constructor.
      - apply S1. intros C HC. apply A, in_or_app. auto.
      - apply S2. intros C HC. apply A, in_or_app. auto. }
    intros x vals H.
    assert (HV : forall t, exists v vs, vals t = v :: vs /\ wsem (x t) e v /\ Forall2 (wsem (x t)) l vs).
    { intros t. specialize (H t). inversion H; subst. eauto 6. }
    destruct (C1 x (fun t => hd [] (vals t))) as [x1 [O1 [A1 M1]]].
    { intros t. destruct (HV t) as [v [vs [-> [Hv _]]]]. exact Hv. }
    destruct (C2 x1 (fun t => tl (vals t))) as [x2 [O2 [A2 M2]]].
    { intros t. destruct (HV t) as [v [vs [-> [_ Hv]]]]. cbn [tl].
      assert (XE : forall n, In n (flat_map nodes_of l) -> x t n = x1 t n).
      { intros n Hn. symmetry. apply O1. left. apply LV, in_or_app. auto. }
      clear - Hv XE. induction Hv as [|e v l vs Q Hv IH]; constructor.
      - eapply wsem_ext; [|exact Q]. intros n Hn. apply XE. cbn. apply in_or_app. auto.
      - apply IH. intros n Hn. apply XE. cbn. apply in_or_app. auto. }
    exists x2. split; [|split].
    + intros t n L. rewrite O2 by lia. apply O1. lia.
    + intros C HC. apply in_app_or in HC as [HC|HC]; [|auto]. apply (holds_ext C x1); [|now apply A1].
      intros t n Hn. symmetry. apply O2. left. destruct Hn as [Hn|Hn].
      * destruct (g_ins _ _ _ _ _ G1 C n HC Hn) as [Q|Q]; [|lia].
        assert (n < s_nn s) by (apply LV, in_or_app; auto). lia.
      * destruct (grows_out _ _ _ _ _ C n G1 HC Hn) as [[]|Q]. lia.
    + intros t. cbn [map]. destruct (HV t) as [v [vs [EV _]]]. specialize (M1 t). specialize (M2 t). rewrite EV in *. cbn [hd tl] in *.
      f_equal; auto. rewrite <- M1. apply map_ext_in. intros n Hn. apply O2. left.
      destruct (I1 n Hn) as [Q|Q]; [|lia]. assert (n < s_nn s) by (apply LV, in_or_app; auto). lia.
Qed.

Lemma map_concat {A B} (f : A -> B) l : map f (concat l) = concat (map (map f) l).
Proof. induction l as [|a l IH]; auto. cbn. now rewrite map_app, IH. Qed.

Lemma compile_ok e : compile_spec e.
Proof.
  induction e as [sz nm|k l IH] using wexpr_induct; [apply var_ok|].
  intros R outs pd s W LV LO NP.
  assert (PD : {k = KPred} + {k <> KPred}) by (destruct k; ((left; reflexivity) || (right; discriminate))).
  destruct PD as [->|NK].
  { (* the predicate is its operand *)
    destruct pd; [destruct (NP eq_refl)|].
    assert (exists e, l = [e] /\ width e = Some (length outs)) as [e [-> We]].
    { cbn [CompSpec.width] in W. destruct l as [|e [|e2 l]]; cbn [map somes] in W.
      - discriminate.
      - exists e. split; auto. destruct (width e); [|discriminate]. cbn [kwidth] in W. bools. subst. congruence.
      - destruct (width e), (width e2); try discriminate. destruct (somes (map width l)); discriminate. }
    destruct (IH e (or_introl eq_refl) (reads_in KPred [e] e R (or_introl eq_refl)) outs false (drive outs s) We) as [s' [news [E [G [P1 [P2 [SN CP]]]]]]].
    - intros n Hn. apply LV. cbn. now rewrite app_nil_r.
    - exact LO.
    - discriminate.
    - exists s', news. split; [exact E|]. split.
      { apply grows_drive. eapply grows_vars; [|exact G]. cbn. rewrite app_nil_r. apply incl_refl. }
      split; auto. split; auto. split.
      + intros x A t. apply wsem_node. exists [map (x (shift false t)) outs]. split; [|reflexivity].
        constructor; [|constructor]. now apply SN.
      + intros x A. apply CP. intros t. specialize (A t). apply wsem_node in A as [vals [F K]].
        inversion F as [|? v ? vs Hv F']; subst. inversion F'; subst. cbn [ksem] in K. now subst v. }
  pose proof W as W0. cbn [CompSpec.width] in W. destruct (somes (map width l)) as [ws|] eqn:EW; [|discriminate].
  pose proof (somes_map _ _ _ EW) as FW.
  assert (LL : length l = length ws) by (clear - FW; induction FW; cbn; auto).
  destruct (kind_ok accurate k ws (length outs) (map get_size l) W NK) as [p [EP [RA [RS [RF [RC RK]]]]]].
  { now rewrite map_length. }
  { now apply (asked_ok look). }
  set (s1 := push (Comp (p_op p) (p_size p) [] outs pd 0) (drive outs s)).
  destruct (run_ok l (fun e He => Logic.conj (IH e He) (reads_in k l e R He)) ws FW s1) as [is [s2 [news [E [G [LI [II [PH [SN CP]]]]]]]]].
  { exact LV. }
  set (C := Comp (p_op p) (p_size p) (concat is) outs pd 0).
  exists (fill (length (s_comps s)) C s2), (C :: news).
  assert (EC : compile (WNode k l) outs pd s = Ret (fill (length (s_comps s)) C s2)).
  { assert (ES : compile (WNode k l) outs pd s =
      bind (plan accurate k (map get_size l) (length outs)) (fun p =>
      if negb (length l =? length (p_args p)) then Stop
      else bind (run (combine (map (fun e' => arg look e' (fun o s' => compile e' o false s')) l) (p_args p))
                   (push (Comp (p_op p) (p_size p) [] outs pd 0) (drive outs s)))
          (fun '(is, s2) =>
          if p_first p && match is with [] :: _ => true | _ => false end then Undef
          else if match p_chk p, is with Some n, i :: _ => negb (n =? length i) | _, _ => false end then Stop
          else Ret (fill (length (s_comps s)) (Comp (p_op p) (p_size p) (concat is) outs pd 0) s2)))).
    { destruct k; try reflexivity. now destruct NK. }
    rewrite ES, EP. cbn [bind]. rewrite RA, LL, Nat.eqb_refl. cbn [negb]. fold s1. rewrite E. cbn [bind].
    assert (E1 : p_first p && match is with [] :: _ => true | _ => false end = false).
    { destruct (p_first p) eqn:Q; auto. cbn [andb]. destruct is as [|[|n i] is]; auto. exfalso.
      cbn [map] in LI. destruct ws as [|w ws]; [discriminate|]. injection LI as LI _.
      inversion FW as [|e ? ? ? We _]; subst. pose proof (width_pos look e 0 We). lia. }
    assert (E2 : match p_chk p, is with Some n, i :: _ => negb (n =? length i) | _, _ => false end = false).
    { destruct RC as [->| ->]; auto. destruct is as [|i is]; auto. cbn [map] in LI.
      destruct ws as [|w ws]; [discriminate|]. injection LI as LI _. cbn [nth]. subst w. now rewrite Nat.eqb_refl. }
    rewrite E1, E2. reflexivity. }
  split; [exact EC|].
  assert (G' : grows s (fill (length (s_comps s)) C s2) outs (nodes_of (WNode k l)) (C :: news)).
  { apply (grows_node s s2 outs _ news (Comp (p_op p) (p_size p) [] outs pd 0)); auto. }
  split; [exact G'|]. split; [|split; [|split]].
  - intros D [<-|HD]; [cbn; auto|]. intros Q. rewrite (PH D HD) in Q. discriminate.
  - intros D o [<-|HD] Ho HO; [reflexivity|]. exfalso. destruct (grows_out _ _ _ _ _ D o G HD HO) as [[]|Q].
    specialize (LO o Ho). cbn in Q. lia.
  - intros x A t. apply wsem_node. exists (map (map (x t)) is). split; [apply SN; intros D HD; apply A; now right|].
    pose proof (A C (or_introl eq_refl) t) as HC. unfold C in HC. cbn [c_op c_size c_ins c_outs c_phase] in HC.
    apply RK; [|now rewrite map_length|].
    + rewrite map_map. rewrite <- LI. apply map_ext. intros a. now rewrite map_length.
    + rewrite <- map_concat. exact HC.
  - intros x A. destruct (choose_operands look k l (length outs) x _ W0 A) as [vals HV].
    destruct (CP x vals (fun t => proj1 (HV t))) as [y [SO [AH MY]]]. exists y. split.
    { exact SO. }
    intros D [<-|HD]; [|auto]. intros t. unfold C. cbn [c_op c_size c_ins c_outs c_phase].
    rewrite map_concat, MY.
    assert (EO : map (y (shift pd t)) outs = map (x (shift pd t)) outs).
    { apply map_ext_in. intros n Hn. apply SO. left. cbn. auto. }
    rewrite EO. apply RK; [|now rewrite map_length|apply HV].
    eapply widths_of; [exact EW|apply HV].
Qed.
End Expr.
