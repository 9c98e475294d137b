(* Property theorems: compilation of expressions into circuits (C41). *)
From Coq Require Import String List Arith NArith ZArith Bool Lia.
From Verif Require Import FsmOps FsmBool SteModel SteEv SteForce SteForceThms SteSim SteRun SteEx
  CompModel CompSpec CompKind CompThms CompGrow CompExpr CompRank CompLeaf CompEx.
Import ListNotations.

(* C41: traverse_pexlif and compile_expr.  A design is a list of declarations and leaves.
   placed: the widths of the operands fit, vectors are declared before they are used, no
   memory read is at a place where get_wexpr_size gives the wrong width (reads_ok), no
   W_PRED is directly below a phase delay.  single_drivers: no node is assigned twice.
   levelled: no zero-delay loop.  Then the design compiles, the circuit is well-formed in
   the sense of C30, its executions are behaviours of the design, and every behaviour is
   that of an execution with the same values at the declared nodes dn. *)
Theorem C41_compile : forall accurate l,
  placed accurate l const_nodes start -> single_drivers (fns l) -> (exists level, levelled level (fns l)) ->
  exists dn s, compile_items accurate l const_nodes start = Ret (dn, s) /\ wf (to_net s) /\
    (forall x, execution (to_net s) x -> behaviour (fns l) x) /\
    (forall x, behaviour (fns l) x -> exists y, execution (to_net s) y /\ forall t n, In n dn -> y t n = x t n).
Proof.
  intros accurate l P S L. destruct (compile_items_ok accurate l P S L) as [dn [s [A [B [_ [_ [C D]]]]]]]. eauto 10.
Qed.
Print Assumptions C41_compile.

(* One expression, for any state of the compilation: the composites that compile_expr adds
   hold for x exactly if the output nodes have a value of the expression (for some values
   of the temporaries, which are the nodes that it declares). *)
Theorem C41_expr : forall look accurate e outs pd s,
  reads_ok e -> width look e = Some (length outs) ->
  (forall n, In n (nodes_of look e) -> n < s_nn s) -> (forall n, In n outs -> n < s_nn s) ->
  (pd = true -> no_pred e) ->
  exists s' news, compile look accurate e outs pd s = Ret s' /\ s_comps s' = s_comps s ++ news /\ s_nn s <= s_nn s' /\
    forall x,
      ((forall C, In C news -> holds C x) ->
         forall t, wsem look (x t) e (map (x (if pd then t + 1 else t)%Z) outs)) /\
      ((forall t, wsem look (x t) e (map (x (if pd then t + 1 else t)%Z) outs)) ->
         exists y, (forall t n, n < s_nn s -> y t n = x t n) /\ forall C, In C news -> holds C y).
Proof.
  intros look accurate e outs pd s R W V O P.
  destruct (compile_ok look accurate e R outs pd s W V O P) as [s' [news [E [G [_ [_ [A B]]]]]]].
  exists s', news. split; [exact E|]. split; [apply G|]. split; [apply G|]. intros x. split; [apply A|].
  intros H. destruct (B x H) as [y [Y1 Y2]]. exists y. split; [|exact Y2]. intros t n L. apply Y1. now left.
Qed.
Print Assumptions C41_expr.

(* With C30_sound_partial: a check by gSTE on the compiled circuit is a statement about
   the behaviours of the design. *)
Theorem C41_ste : forall (V A : Type) cand cor cnot (czero cone : V) ceq weakening big chg0 (den : V -> A -> bool)
    accurate l dn s srt gas limit wl ant cons trl r,
  (forall a, den czero a = false) -> (forall a, den cone a = true) ->
  (forall x y a, den (cand x y) a = den x a && den y a) ->
  (forall x y a, den (cor x y) a = den x a || den y a) ->
  (forall x a, den (cnot x) a = negb (den x a)) ->
  (forall x y a, ceq x y = true -> den x a = den y a) ->
  placed accurate l const_nodes start -> single_drivers (fns l) -> (exists level, levelled level (fns l)) ->
  compile_items accurate l const_nodes start = Ret (dn, s) ->
  sorts V srt -> proper V wl ant cons trl ->
  (forall k, In k ant -> In (k_nd V k) dn /\ 3 < k_nd V k /\
     forall look f, In (look, f) (fns l) -> In (k_nd V k) (targets look (st_lhs f)) -> st_phase f = false) ->
  (forall k, In k cons -> In (k_nd V k) dn /\ k_nd V k <> 3) ->
  (forall k, In k ant ->
    (forall c, In c cons -> k_nd V c = k_nd V k -> k_from V c = k_to V k -> restarts V wl ant (k_nd V k) (k_to V k)) /\
    (forall r, In r trl -> t_nd r = k_nd V k -> t_from r = k_to V k -> restarts V wl ant (k_nd V k) (k_to V k))) ->
  (forall n, disjoint (k_nd V) (k_from V) (k_to V) n cons) ->
  gSTE V cand cor cnot czero cone ceq weakening big chg0 srt (to_net s) gas limit wl ant cons trl = Some r ->
  r_gave_up V r = false ->
  forall a x, behaviour (fns l) x -> satisfies V A den a ant x -> den (r_check V r) a = true ->
  satisfies V A den a cons x.
Proof.
  intros V A cand cor cnot czero cone ceq weakening big chg0 den accurate l dn s srt gas limit wl ant cons trl r
    D0 D1 Da Do Dn De P SD LV CM SR PR AN CN NC CD G GU a x BX SA CK.
  destruct (compile_items_ok accurate l P SD LV) as [dn' [s' [CM' [W [LT [PH [_ EX]]]]]]].
  rewrite CM in CM'. injection CM' as <- <-.
  destruct (EX x BX) as [y [EY Y]].
  destruct (gSTE_ok V A cand cor cnot czero cone ceq weakening big chg0 den D0 D1 Da Do Dn De
              srt (to_net s) gas limit wl ant cons trl r) with (a := a) (y := y) as [_ [_ H]]; auto.
  - intros k Hk. destruct (AN k Hk) as [A1 [A2 A3]]. split; [split; auto|]. intros j Dj.
    destruct (c_phase (cmp (to_net s) j)) eqn:Q; auto. destruct (PH _ _ Dj Q) as [look [f [F1 [F2 F3]]]].
    rewrite (A3 look f F1 F3) in F2. discriminate.
  - intros k Hk. destruct (CN k Hk). auto.
  - intros k t Hk T D. rewrite Y by (now apply AN). now apply SA.
  - intros k t Hk T D. rewrite <- Y by (now apply CN). now apply H.
Qed.
Print Assumptions C41_ste.

Example C41_ste_ex :
  let ant := [Cond V2 one2 4 SteEx.var2 0 1] in
  let cons := [Cond V2 one2 5 (not2 SteEx.var2) 0 1; Cond V2 one2 6 (not2 SteEx.var2) 1 2] in
  placed true reg_design const_nodes start /\ single_drivers (fns reg_design) /\ levelled (fun n => n) (fns reg_design) /\
  (exists r, ste reg_net [] ant cons [] = Some r /\ r_check V2 r = one2 /\ r_gave_up V2 r = false) /\
  (exists x, behaviour (fns reg_design) x /\ satisfies V2 bool den2 true ant x).
Proof.
  destruct reg_ok as [A [B C]]. split; [exact A|]. split; [exact B|]. split; [exact C|].
  split; [eexists; split; [vm_compute; reflexivity|split; reflexivity]|].
  exists (fun _ n => match n with 0 => false | 1 => true | 4 => true | _ => false end). split.
  - split; [intros t; split; reflexivity|]. intros look f [H|[H|[]]] t; injection H as <- <-; exists [false]; split; try reflexivity.
    exists [[true]]. split; [split; reflexivity|reflexivity].
  - intros k t [<-|[]] _ _. reflexivity.
Qed.

(* rank_order: if no path through the circuit has more than 1000 composites, a composite
   has a higher rank than those that its outputs feed, up to phase delays.  (The composites
   are evaluated from the highest rank down.) *)
Theorem C41_ranks : forall s (depth : nat -> nat) k j,
  (forall n i, In i (s_fan s n) -> i < length (s_comps s)) ->
  (forall i i', c_phase (nth i (s_comps s) dummy) = false -> In i' (feeds s i) -> depth i' < depth i) ->
  (forall i, i < length (s_comps s) -> depth i < 1000) ->
  k < length (s_comps s) -> c_phase (nth k (s_comps s) dummy) = false -> In j (feeds s k) ->
  c_rank (cmp (to_net s) j) < c_rank (cmp (to_net s) k) <= ranks (to_net s).
Proof.
  intros s depth k j F D H L P J.
  assert (RK : forall i, i < length (s_comps s) -> c_rank (cmp (to_net s) i) = rk (rank_order s) i) by (exact (to_net_rank s)).
  assert (Lj : j < length (s_comps s)).
  { unfold feeds in J. apply in_flat_map in J. destruct J as [n [_ J]]. now apply (F n). }
  split; [|destruct (to_net_cmp s k) as [[C [r [_ [B E]]]]|[_ E]]; rewrite E; cbn; [exact B|lia]].
  rewrite !RK by assumption. apply (rank_order_topo s depth); auto.
  - intros i i' E. apply D. unfold early in E. now apply orb_false_elim in E.
  - intros i i' E. unfold feeds in E. apply in_flat_map in E. destruct E as [n [_ E]]. now apply (F n).
Qed.
Print Assumptions C41_ranks.

Example C41_ranks_ex : let s := chain 3 in
  (forall n i, In i (s_fan s n) -> i < 3) /\ In 2 (feeds s 1) /\
  (forall i i', In i' (feeds s i) -> 3 - i' < 3 - i) /\ map (fun k => c_rank (cmp (to_net s) k)) [0; 1; 2] = [3; 2; 1].
Proof.
  split; [|split; [left; reflexivity|split; [|vm_compute; reflexivity]]].
  - intros n i H. cbn in H. destruct n as [|[|[|[|[|[|[|n]]]]]]]; cbn in H; intuition (subst; lia).
  - intros i i' H. destruct (Nat.lt_ge_cases i 3) as [L|L].
    + destruct (chain_feeds 3 i L i' H). lia.
    + unfold feeds in H. rewrite nth_overflow in H by exact L. easy.
Qed.

(* Beyond that they are not. *)
Theorem C41_ranks_refuted : exists n k,
  let s := chain n in
  (forall i, i < n -> forall j, In j (feeds s i) -> i < j) /\ In (S k) (feeds s k) /\
  c_rank (cmp (to_net s) k) < c_rank (cmp (to_net s) (S k)).
Proof. exists (20 * 55), 999. exact chain_ranks. Qed.
Print Assumptions C41_ranks_refuted.

Example C41_ex : placed true design const_nodes start /\ single_drivers (fns design) /\
  levelled lev (fns design) /\ List.length (fns design) = 5 /\
  match compile_items true design const_nodes start with
  | Ret (dn, s) => (List.length dn, s_nn s, List.length (s_comps s)) = (16, 27, 13)
  | _ => False
  end.
Proof.
  split; [exact design_placed|]. split; [exact design_single|]. split; [exact design_levelled|]. split; [reflexivity|].
  vm_compute. reflexivity.
Qed.

(* Without reads_ok: o = (m[a] == b) compares only the first bit, as get_wexpr_size gives
   the width of the address. *)
Theorem C41_memread_refuted : exists look f s dn x,
  is_lhs (st_lhs f) /\ width look (st_lhs f) = Some 1 /\ width look (st_rhs f) = Some 1 /\
  compile_items true [Declare 8; Leaf look [f]] const_nodes start = Ret (dn, s) /\
  execution (to_net s) x /\ ~ behaviour [(look, f)] x.
Proof. exact memread_refuted. Qed.
Print Assumptions C41_memread_refuted.

(* Without no_pred: the phase delay is lost. *)
Theorem C41_pred_refuted : exists look f s dn x,
  is_lhs (st_lhs f) /\ width look (st_lhs f) = Some 1 /\ width look (st_rhs f) = Some 1 /\ reads_ok (st_rhs f) /\
  compile_items true [Declare 2; Leaf look [f]] const_nodes start = Ret (dn, s) /\
  execution (to_net s) x /\ ~ behaviour [(look, f)] x.
Proof. exact pred_refuted. Qed.
Print Assumptions C41_pred_refuted.
