(** Properties C01-C10: the BDD package (new_bdd.c).

    [reached s rs] (BddThms.v): a session of manager calls, including
    collections and reorderings, leaves state [s] with formulas [rs] held.
    [den s f E] (BddDen.v): the value of [f] under the assignment [E] of
    variable names, found by walking the graph.  [kept s s' rs]: the formulas
    [rs] have the same meaning in both states. *)
From stdpp Require Import gmap strings list.
From Coq Require Import NArith.
From Verif Require Import BddModel BddWf BddQuant BddRelprod BddDen BddSubst BddSize BddCount BddGc BddSwap BddSave BddHist BddThms.
Open Scope N_scope.

(** ** C01 *)
Theorem C01_operators o s rs a b : reached s rs -> a ∈ rs -> b ∈ rs ->
  exists c s', op_fn o a b s = Some (c, s') /\ reached s' (rs ++ [c]) /\ kept s s' rs /\
    forall E, den s' c E = op_sem o (den s a E) (den s b E).
Proof. exact (thm_op o s rs a b). Qed.
Print Assumptions C01_operators.
Theorem C01_not s rs a : reached s rs -> a ∈ rs ->
  exists c s', B_Not a s = Some (c, s') /\ reached s' (rs ++ [c]) /\ kept s s' rs /\
    forall E, den s' c E = negb (den s a E).
Proof. exact (thm_not s rs a). Qed.
Print Assumptions C01_not.
Theorem C01_ite s rs a b c : reached s rs -> a ∈ rs -> b ∈ rs -> c ∈ rs ->
  exists d s', B_Ite a b c s = Some (d, s') /\ reached s' (rs ++ [d]) /\ kept s s' rs /\
    forall E, den s' d E = if den s a E then den s b E else den s c E.
Proof. exact (thm_ite s rs a b c). Qed.
Print Assumptions C01_ite.
Theorem C01_variable s rs x : reached s rs ->
  exists c s', B_Var x s = Some (c, s') /\ reached s' (rs ++ [c]) /\ kept s s' rs /\ forall E, den s' c E = E x.
Proof. exact (thm_var s rs x). Qed.
Print Assumptions C01_variable.
(** Whole histories: every sensible session runs to the end, and the registers
    hold what the commands mean. *)
Theorem C01_session sz h : 0 < sz -> sensible 0 h -> Forall no_relprod h ->
  exists s rs vs, session c_tag sz h = Some (s, rs) /\ meanss h [] vs /\
    Forall2 (fun f F => forall E, den s f E = F E) rs vs.
Proof. exact (thm_session sz h). Qed.
Print Assumptions C01_session.

(* A session with collection, reordering and substitution. *)
Definition demo : list cmd :=
  [CVar "x"; CVar "y"; CVar "z"; COp Or 0 1; COp And 3 2; CKeep [4]; CGc; CVar "y"; CThereis 1 0;
   CReorder [0; 1; 3; 2]; CSubst [("x"%string, 1); ("y"%string, 0)] 0; COp Xnor 3 2; CIte 1 4 0]%nat.
Example demo_sensible : sensible 0 demo /\ Forall no_relprod demo.
Proof.
  split; [|repeat constructor]. cbn. repeat match goal with
    | |- _ /\ _ => split | |- True => exact I | |- Forall _ _ => constructor
    | |- NoDup _ => apply (bool_decide_unpack _); vm_compute; exact I | |- (_ < _)%nat => lia | |- (_ <= _)%nat => lia end; cbn; lia.
Qed.
Example demo_runs : match session c_tag 4 demo with
  Some (s, rs) => ((length rs =? 6)%nat && (nvars s =? 6) && bool_decide (NoDup (take 3 rs)))%bool | None => false end = true.
Proof. vm_compute. reflexivity. Qed.

(** ** C02 *)
Theorem C02_canonical s rs a b : reached s rs -> a ∈ rs -> b ∈ rs -> a = b <-> forall E, den s a E = den s b E.
Proof. exact (thm_canon s rs a b). Qed.
Print Assumptions C02_canonical.
Theorem C02_constants s rs a : reached s rs -> a ∈ rs ->
  (a = ONE <-> forall E, den s a E = true) /\ (a = ZERO <-> forall E, den s a E = false).
Proof. exact (thm_taut s rs a). Qed.
Print Assumptions C02_constants.
Example C02_distributive : match session c_tag 4 [CVar "a"; CVar "b"; CVar "c"; COp Or 1 2; COp And 0 3; CGc;
    COp And 0 1; COp And 0 2; CReorder [0; 1]; COp Or 5 6]%nat with
  Some (s, rs) => rs !! 4%nat = rs !! 7%nat /\ is_Some (rs !! 4%nat) | None => False end.
Proof. vm_compute. eauto. Qed.

(** ** C03 *)
Theorem C03_forall s rs a f : reached s rs -> a ∈ rs -> f ∈ rs ->
  exists r s', quant_forall a f s = Some (r, s') /\ reached s' (rs ++ [r]) /\ kept s s' rs /\
    forall E, den s' r E = true <-> qforall (ndep (den s a)) (den s f) E.
Proof. exact (thm_forall s rs a f). Qed.
Print Assumptions C03_forall.
Theorem C03_thereis s rs a f : reached s rs -> a ∈ rs -> f ∈ rs ->
  exists r s', quant_thereis a f s = Some (r, s') /\ reached s' (rs ++ [r]) /\ kept s s' rs /\
    forall E, den s' r E = true <-> qthereis (ndep (den s a)) (den s f) E.
Proof. exact (thm_thereis s rs a f). Qed.
Print Assumptions C03_thereis.
Example C03_demo : match session c_tag 4 [CVar "a"; CVar "b"; COp Xor 0 1; CForall 0 2; CThereis 0 2; COp Or 0 1; CForall 0 5]%nat with
  Some (s, rs) => rs !! 3%nat = Some ZERO /\ rs !! 4%nat = Some ONE /\ rs !! 6%nat = rs !! 1%nat | None => False end.
Proof. by vm_compute. Qed.

(** ** C04 *)
(** The code as written passes the C boolean where quantify expects a tag; three
    sessions for which it then differs from the meaning of the commands. *)
(* relprod_forall x T x: the code answers T. *)
Theorem C04_relprod_forall_refuted : let h := [CVar "x"; CConst true; CRelprod false 0 1 0]%nat in
  sensible 0 h /\ ~ agrees c_tag h.
Proof. exact (conj (proj1 h_sens) h_all_wrong). Qed.
Print Assumptions C04_relprod_forall_refuted.
(* relprod_thereis x T (x OR y) answers x when (x OR y) AND x was computed before. *)
Theorem C04_relprod_thereis_refuted :
  let h := [CVar "x"; CVar "y"; CConst true; COp Or 0 1; COp And 3 0; CRelprod true 0 2 3]%nat in
  sensible 0 h /\ ~ agrees c_tag h.
Proof. exact (conj (proj1 (proj2 h_sens)) h_ex_wrong). Qed.
Print Assumptions C04_relprod_thereis_refuted.
(* ... and the other way round, AND itself goes wrong after relprod_thereis. *)
Theorem C04_relprod_breaks_and_refuted :
  let h := [CVar "x"; CVar "y"; CConst true; COp Or 0 1; CRelprod true 0 2 3; COp And 3 0]%nat in
  sensible 0 h /\ ~ agrees c_tag h.
Proof. exact (conj (proj2 (proj2 h_sens)) h_and_wrong). Qed.
Print Assumptions C04_relprod_breaks_and_refuted.
(** With the two tags put right every session agrees.  Missing: the code as it is. *)
Theorem C04_relprod_partial sz h : 0 < sz -> sensible 0 h ->
  exists s rs vs, session good_tag sz h = Some (s, rs) /\ meanss h [] vs /\
    Forall2 (fun f F => forall E, den s f E = F E) rs vs.
Proof. exact (thm_session_fixed sz h). Qed.
Print Assumptions C04_relprod_partial.
Example C04_demo : match session good_tag 4 (h_ex ++ [CRelprod false 0 2 0])%list%nat with Some _ => True | None => False end.
Proof. by vm_compute. Qed.

(** ** C05 *)
Theorem C05_substitute s rs prs f : reached s rs -> Forall (fun p => p.2 ∈ rs) prs -> f ∈ rs -> NoDup prs.*1 ->
  exists r s', do_substitute prs [f] s = Some (Some [r], s') /\ kept s s' rs /\
    forall E, den s' r E = den s f (fun x => match assoc x prs with Some g => den s g E | None => E x end).
Proof. exact (thm_subst s rs prs f). Qed.
Print Assumptions C05_substitute.
Theorem C05_duplicates s rs prs f : reached s rs -> Forall (fun p => p.2 ∈ rs) prs -> f ∈ rs -> ~ NoDup prs.*1 ->
  exists s', do_substitute prs [f] s = Some (None, s') /\ kept s s' rs.
Proof. exact (thm_subst_dup s rs prs f). Qed.
Print Assumptions C05_duplicates.
Example C05_swap : match session c_tag 4 [CVar "a"; CVar "b"; CNot 1; COp And 0 2; CSubst [("a"%string, 1); ("b"%string, 0)] 3; CNot 0; COp And 1 5]%nat with
  Some (s, rs) => rs !! 4%nat = rs !! 6%nat /\ rs !! 4%nat <> rs !! 3%nat | None => False end.
Proof. by vm_compute. Qed.

(** ** C06 *)
Theorem C06_depends s rs f : reached s rs -> f ∈ rs ->
  exists l, depends [f] s = Some (l, s) /\
    forall x, x ∈ l <-> exists E E', (forall y, y <> x -> E y = E' y) /\ den s f E <> den s f E'.
Proof. exact (thm_depends s rs f). Qed.
Print Assumptions C06_depends.
Example C06_demo : match session c_tag 4 [CVar "a"; CVar "b"; CVar "c"; COp Or 0 1; CNot 0; COp Or 4 1; COp And 3 5; COp Xor 6 2]%nat with
  Some (s, rs) => match rs !! 7%nat with Some f => option_map fst (depends [f] s) = Some ["b"; "c"]%string | None => False end | None => False end.
Proof. by vm_compute. Qed.

(** ** C07 *)
Theorem C07_truth_cover s rs xs f : reached s rs -> f ∈ rs -> NoDup xs -> exists r s',
  truth_cover xs f s = Some (r, s') /\ kept s s' rs /\
  match r with
  | Ok n => (forall x, ndep (den s f) x -> x ∈ xs) /\ forall E, count_sat xs (den s f) E = n
  | Err => ~ forall x, ndep (den s f) x -> x ∈ xs
  end.
Proof. exact (thm_count s rs xs f). Qed.
Print Assumptions C07_truth_cover.
Example C07_demo : match session c_tag 4 [CVar "a"; CVar "b"; COp Or 0 1]%nat with
  Some (s, rs) => match rs !! 2%nat with
    Some f => option_map fst (truth_cover ["b"; "q"; "a"] f s) = Some (Ok 6) /\ option_map fst (truth_cover ["b"; "q"] f s) = Some Err
    | None => False end | None => False end.
Proof. by vm_compute. Qed.

(** ** C08 *)
Theorem C08_collection s rs : reached s rs -> exists s' rc, gc s rs = Some (s', rc) /\ reached s' rs /\ kept s s' rs /\
  (forall j, is_Some (nodes s' !! j) <-> rooted s rs j /\ is_Some (nodes s !! j)) /\
  (forall j, is_Some (nodes s !! j) -> nodes s' !! j = None -> j ∈ free s') /\
  (forall k f g r, cache s' !! (k, f, g) = Some r -> cache s !! (k, f, g) = Some r /\ live s' f /\ live s' g /\ live s' r).
Proof. exact (thm_gc s rs). Qed.
Print Assumptions C08_collection.
Example C08_demo : match session c_tag 4 [CVar "a"; CVar "b"; COp Or 0 1; COp Xor 0 2; CKeep [2]]%nat with
  Some (s, rs) => match gc s rs with Some (s', _) => (map_size (nodes s') < map_size (nodes s))%nat /\ (1 < map_size (cache s))%nat
   | None => False end | None => False end.
Proof. vm_compute. lia. Qed.

(** ** C09 *)
Theorem C09_reordering s rs ps : reached s rs -> (forall k, k ∈ ps -> (S k < length (ord s))%nat) ->
  exists s', gc_reorder s rs ps = Some s' /\ reached s' rs /\ kept s s' rs /\
    rev_of s' = foldl exch (rev_of s) ps /\ (forall v, v < nvars s -> rev_of s' !! N.to_nat (ORDER s' v) = Some v).
Proof. exact (thm_reorder s rs ps). Qed.
Print Assumptions C09_reordering.
Example C09_demo : match session c_tag 4 [CVar "a"; CVar "b"; CVar "c"; COp And 0 1; COp Xor 3 2]%nat with
  Some (s, rs) => match gc_reorder s rs [0; 3; 1]%nat with Some s' => rev_of s <> rev_of s' /\ nodes s <> nodes s'
   | None => False end | None => False end.
Proof. vm_compute. done. Qed.

(** ** C10 *)
Theorem C10_save_load s1 rs1 s2 rs2 fs : reached s1 rs1 -> reached s2 rs2 -> (forall f, f ∈ fs -> f ∈ rs1) ->
  exists file, Save_BDDs fs s1 = Some file /\
  exists gs s2', Load_BDDs file s2 = Some (gs, s2') /\ kept s2 s2' rs2 /\
    Forall2 (fun g f => forall E, den s2' g E = den s1 f E) gs fs.
Proof. exact (thm_save_load s1 rs1 s2 rs2 fs). Qed.
Print Assumptions C10_save_load.
Example C10_demo : match session c_tag 4 [CVar "a"; CVar "b"; CNot 0; COp And 2 1]%nat, session c_tag 4 [CVar "q"; CVar "b"]%nat with
  Some (s1, rs1), Some (s2, rs2) => match Save_BDDs rs1 s1 with
    Some file => match Load_BDDs file s2 with Some (gs, s2') => length gs = 4%nat /\ gs !! 1%nat = rs2 !! 1%nat | None => False end
   | None => False end | _, _ => False end.
Proof. vm_compute. done. Qed.
