(* Property theorems: resolution of overloaded functions (C55). *)
From Coq Require Import String List Bool Arith Lia.
From Verif Require Import TyModel TyThms InfModel InfSpec InfThms InfRun InfEnd InfEx
  OvModel OvSpec OvPath OvStore OvThms OvEnd OvEx.
Import ListNotations.
Open Scope list_scope.

(* C55: the search answers with no solution only if there is none, ... *)
Theorem C55_none : forall ar gheap sigma fns veq fuel depth todo s f s2, base_arities ar ->
  store ar gheap -> reading gheap sigma ->
  (forall p, nth_error gheap p = Some NVar -> sigma p = Nd (LVar p) []) ->
  good_table fns sigma gheap -> okst ar s -> allnv s -> occs_ok fns (length (t_heap s)) todo ->
  nbr_succ fuel gheap fns veq depth todo s = ROk (ANone f) s2 ->
  forall cs, ~ solution fns sigma (t_heap s) todo cs.
Proof.
  intros ar gheap sigma fns veq fuel depth todo s f s2 BA GS GR GV GT O N T E.
  pose proof (nbr_solutions ar BA gheap sigma GS GR GV fns GT fuel veq depth todo s O N T) as H.
  rewrite E in H. exact (proj2 H).
Qed.
Print Assumptions C55_none.

(* C55: ... with one solution only if that is the only one, ... *)
Theorem C55_unique : forall ar gheap sigma fns veq fuel depth todo s l s2, base_arities ar ->
  store ar gheap -> reading gheap sigma ->
  (forall p, nth_error gheap p = Some NVar -> sigma p = Nd (LVar p) []) ->
  good_table fns sigma gheap -> okst ar s -> allnv s -> occs_ok fns (length (t_heap s)) todo ->
  nbr_succ fuel gheap fns veq depth todo s = ROk (AOne l) s2 ->
  exists cs, solution fns sigma (t_heap s) todo cs /\ l = flats cs
    /\ forall cs', solution fns sigma (t_heap s) todo cs' -> cs' = cs.
Proof.
  intros ar gheap sigma fns veq fuel depth todo s l s2 BA GS GR GV GT O N T E.
  pose proof (nbr_solutions ar BA gheap sigma GS GR GV fns GT fuel veq depth todo s O N T) as H.
  rewrite E in H. exact (proj2 H).
Qed.
Print Assumptions C55_unique.

(* C55: ... and with more only if there are two. *)
Theorem C55_many : forall ar gheap sigma fns veq fuel depth todo s n s2, base_arities ar ->
  store ar gheap -> reading gheap sigma ->
  (forall p, nth_error gheap p = Some NVar -> sigma p = Nd (LVar p) []) ->
  good_table fns sigma gheap -> okst ar s -> allnv s -> occs_ok fns (length (t_heap s)) todo ->
  nbr_succ fuel gheap fns veq depth todo s = ROk (AMany n) s2 ->
  2 <= n /\ exists cs cs', solution fns sigma (t_heap s) todo cs
    /\ solution fns sigma (t_heap s) todo cs' /\ cs <> cs'.
Proof.
  intros ar gheap sigma fns veq fuel depth todo s n s2 BA GS GR GV GT O N T E.
  pose proof (nbr_solutions ar BA gheap sigma GS GR GV fns GT fuel veq depth todo s O N T) as H.
  rewrite E in H. exact (proj2 H).
Qed.
Print Assumptions C55_many.

(* C55: it gives up only if as many choices can be made as the depth allows and something is then
   still to be resolved. *)
Theorem C55_deep : forall ar gheap sigma fns veq fuel depth todo s s2, base_arities ar ->
  store ar gheap -> reading gheap sigma ->
  (forall p, nth_error gheap p = Some NVar -> sigma p = Nd (LVar p) []) ->
  good_table fns sigma gheap -> okst ar s -> allnv s -> occs_ok fns (length (t_heap s)) todo ->
  nbr_succ fuel gheap fns veq depth todo s = RFail s2 ->
  deep fns sigma (t_heap s) todo depth.
Proof.
  intros ar gheap sigma fns veq fuel depth todo s s2 BA GS GR GV GT O N T E.
  pose proof (nbr_solutions ar BA gheap sigma GS GR GV fns GT fuel veq depth todo s O N T) as H.
  rewrite E in H. exact (proj1 H).
Qed.
Print Assumptions C55_deep.

(* C55: it ends, without the "Should not be possible" and without a null pointer. *)
Theorem C55_answers : forall ar gheap sigma fns veq depth todo s, base_arities ar ->
  store ar gheap -> reading gheap sigma ->
  (forall p, nth_error gheap p = Some NVar -> sigma p = Nd (LVar p) []) ->
  good_table fns sigma gheap -> okst ar s -> allnv s -> occs_ok fns (length (t_heap s)) todo ->
  exists fuel0, forall fuel, fuel0 <= fuel ->
    nbr_succ fuel gheap fns veq depth todo s = nbr_succ fuel0 gheap fns veq depth todo s
    /\ ((exists a s2, nbr_succ fuel gheap fns veq depth todo s = ROk a s2)
        \/ (exists s2, nbr_succ fuel gheap fns veq depth todo s = RFail s2)).
Proof.
  intros ar gheap sigma fns veq depth todo s BA GS GR GV GT O N T.
  destruct (nbr_settles ar BA gheap sigma GS GR GV fns GT veq depth todo s O N T) as (F & o & No & E).
  exists F. intros fuel L. rewrite (E fuel L), (E F (le_n _)). split; [reflexivity|].
  pose proof (nbr_solutions ar BA gheap sigma GS GR GV fns GT F veq depth todo s O N T) as H.
  rewrite (E F (le_n _)) in H. destruct o; [left|right|destruct H|congruence]; eauto.
Qed.
Print Assumptions C55_answers.

(* C55: after an answer all types are as they were before the search. *)
Theorem C55_restores : forall ar gheap sigma fns veq fuel depth todo s a s2, base_arities ar ->
  store ar gheap -> reading gheap sigma ->
  (forall p, nth_error gheap p = Some NVar -> sigma p = Nd (LVar p) []) ->
  good_table fns sigma gheap -> okst ar s -> allnv s -> occs_ok fns (length (t_heap s)) todo ->
  nbr_succ fuel gheap fns veq depth todo s = ROk a s2 ->
  t_ctx s2 = t_ctx s /\ exists t, t_heap s2 = t_heap s ++ t.
Proof.
  intros ar gheap sigma fns veq fuel depth todo s a s2 BA GS GR GV GT O N T E.
  pose proof (nbr_solutions ar BA gheap sigma GS GR GV fns GT fuel veq depth todo s O N T) as H.
  rewrite E in H. exact (proj2 (proj2 (proj1 H))).
Qed.
Print Assumptions C55_restores.

(* C55: the function that is blamed when there is no solution need not be one without a matching
   alternative: here it has exactly one, and the other function has none. *)
Theorem C55_blame_refuted : exists gheap sigma fns f p g q s,
  store arity gheap /\ reading gheap sigma /\ good_table fns sigma gheap /\ okst arity s /\
  (exists fuel s2, nbr_succ fuel gheap fns (fun _ _ _ => false) 9 [(f, p); (g, q)] s = ROk (ANone f) s2) /\
  (exists cs, solution fns sigma (t_heap s) [(f, p)] cs) /\
  (forall cs, ~ solution fns sigma (t_heap s) [(g, q)] cs).
Proof.
  exists ov_g, ov_sigma, ov_fns, 0, 7, 4, 13, ov_s.
  split; [exact ov_g_store|]. split; [exact ov_reads|]. split; [exact ov_table|]. split; [exact ov_s_ok|].
  split; [|split].
  - exists 60. exact (ov_run_ok 9 _ _ ov_blame).
  - destruct (ov_run_ok 9 _ _ ov_blame_one) as (s2 & E).
    destruct (C55_unique arity ov_g ov_sigma ov_fns _ 60 9 [(0, 7)] ov_s [2; 2; 0] s2 arity_base ov_g_store
      ov_reads ov_vars ov_table ov_s_ok ov_s_nv (ov_occs 15 [(0, 7)] eq_refl) E) as (cs & C & _). eauto.
  - destruct (ov_run_ok 9 _ _ ov_blame_none) as (s2 & E).
    exact (C55_none arity ov_g ov_sigma ov_fns _ 60 9 [(4, 13)] ov_s 4 s2 arity_base ov_g_store
      ov_reads ov_vars ov_table ov_s_ok ov_s_nv (ov_occs 15 [(4, 13)] eq_refl) E).
Qed.
Print Assumptions C55_blame_refuted.

(* The hypotheses hold of the functions of OvEx.v. *)
Example C55_ex_hyps : base_arities arity /\ store arity ov_g /\ reading ov_g ov_sigma
  /\ (forall p, nth_error ov_g p = Some NVar -> ov_sigma p = Nd (LVar p) [])
  /\ good_table ov_fns ov_sigma ov_g /\ okst arity ov_s /\ allnv ov_s
  /\ occs_ok ov_fns (length (t_heap ov_s)) [(0, 7); (4, 14)].
Proof.
  split; [exact arity_base|]. split; [exact ov_g_store|]. split; [exact ov_reads|].
  split; [exact ov_vars|]. split; [exact ov_table|]. split; [exact ov_s_ok|].
  split; [exact ov_s_nv|]. exact (ov_occs 15 [(0, 7); (4, 14)] eq_refl).
Qed.
(* Equality at int list list and show at int: lists of lists of integers. *)
Example C55_ex_one : ov_run 9 [(0, 7); (4, 14)] = Some (AOne [2; 2; 0; 0])
  /\ flats [Pick 2 [Pick 2 [Pick 0 []]]; Pick 0 []] = [2; 2; 0; 0].
Proof. split; vm_compute; reflexivity. Qed.
Example C55_ex_none : ov_run 9 [(0, 9)] = Some (ANone 0).
Proof. vm_compute. reflexivity. Qed.
Example C55_ex_many : ov_run 9 [(0, 11)] = Some (AMany 2).
Proof. vm_compute. reflexivity. Qed.
Example C55_ex_deep : ov_loops 9 [(6, 12)] = true.
Proof. vm_compute. reflexivity. Qed.
