(* The simplex loop may come back to the same tableau: LP never answers. *)
From Coq Require Import ZArith QArith Qcanon List Bool Arith Lia String.
From Verif Require Import LpModel LpBase LpSpec.
Import ListNotations.
Open Scope nat_scope.
Open Scope list_scope.
Local Notation length := List.length.

(* p pivots *)
Fixpoint steps (p : nat) (noeps : bool) (t : tab) : option tab :=
  match p with
  | 0 => Some t
  | S k => match simplex_step noeps t with Ok (inl t') => steps k noeps t' | _ => None end
  end.

Lemma steps_simplex noeps p : forall t t' fuel, steps p noeps t = Some t' ->
  simplex fuel noeps t = More \/ simplex fuel noeps t = simplex (fuel - p) noeps t'.
Proof.
  induction p as [|p IH]; intros t t' fuel H; cbn [steps] in H.
  - injection H as <-. right. rewrite Nat.sub_0_r. reflexivity.
  - destruct fuel as [|k]; [left; reflexivity|]. cbn [simplex].
    destruct (simplex_step noeps t) as [[t1|ub]| | |]; try discriminate. cbn [bind]. exact (IH t1 t' k H).
Qed.

Lemma cycle noeps p t : steps (S p) noeps t = Some t -> forall fuel, simplex fuel noeps t = More.
Proof.
  intros H fuel. induction fuel as [fuel IH] using lt_wf_ind. destruct fuel as [|k]; [reflexivity|].
  destruct (steps_simplex noeps (S p) t t (S k) H) as [E|E]; [exact E|]. rewrite E. apply IH. lia.
Qed.

Lemma simplex_det noeps k : forall t v, simplex k noeps t = Ok v -> forall fuel, simplex fuel noeps t = More \/ simplex fuel noeps t = Ok v.
Proof.
  induction k as [|k IH]; intros t v H fuel; [discriminate|]. destruct fuel as [|fuel]; [left; reflexivity|]. cbn [simplex] in *.
  destruct (simplex_step noeps t) as [[t1|ub]| | |]; try discriminate; cbn [bind] in *; [exact (IH t1 v H fuel)|right; exact H].
Qed.
Lemma FindBfs_det k s v : FindBfs k s = Ok v -> forall fuel, FindBfs fuel s = More \/ FindBfs fuel s = Ok v.
Proof.
  intros H fuel. unfold FindBfs in *. destruct (simplex k true (artificial s)) as [p| | |] eqn:E; try discriminate.
  destruct (simplex_det true k _ p E fuel) as [X|X]; rewrite X; [left; reflexivity|right; exact H].
Qed.

(* equality of tableaus *)
Fixpoint list_eqb {A} (eqb : A -> A -> bool) (l l' : list A) : bool :=
  match l, l' with [], [] => true | a :: r, b :: r' => eqb a b && list_eqb eqb r r' | _, _ => false end.
Lemma list_eqb_ok {A} (eqb : A -> A -> bool) : (forall a b, eqb a b = true -> a = b) -> forall l l', list_eqb eqb l l' = true -> l = l'.
Proof.
  intros H. induction l as [|a l IH]; intros [|b l'] E; cbn in E; try discriminate; [reflexivity|].
  apply andb_true_iff in E. destruct E as (E1 & E2). f_equal; [apply H; exact E1|apply IH; exact E2].
Qed.
Definition opt_eqb (a b : option nat) : bool := match a, b with Some x, Some y => x =? y | None, None => true | _, _ => false end.
Definition tab_eqb (t u : tab) : bool :=
  (nrow t =? nrow u) && (ncol t =? ncol u) && opt_eqb (eps t) (eps u) && list_eqb Nat.eqb (ptr t) (ptr u) &&
  list_eqb (list_eqb qeq) (mem t) (mem u) && list_eqb (list_eqb qeq) (unres t) (unres u) && list_eqb Z.eqb (vars t) (vars u).
Lemma tab_eqb_ok t u : tab_eqb t u = true -> t = u.
Proof.
  unfold tab_eqb. intros H. repeat (apply andb_true_iff in H; destruct H as (H & ?)). destruct t, u. cbn in *.
  assert (Q : forall a b, list_eqb qeq a b = true -> a = b) by (apply list_eqb_ok; intros a b E; apply qeq_iff; exact E).
  f_equal.
  - apply Nat.eqb_eq. assumption.
  - apply Nat.eqb_eq. assumption.
  - destruct eps, eps0; cbn in *; try discriminate; [f_equal; apply Nat.eqb_eq; assumption|reflexivity].
  - apply (list_eqb_ok Nat.eqb); [intros a b E; apply Nat.eqb_eq; exact E|assumption].
  - apply (list_eqb_ok _ Q). assumption.
  - apply (list_eqb_ok _ Q). assumption.
  - apply (list_eqb_ok Z.eqb); [intros a b E; apply Z.eqb_eq; exact E|assumption].
Qed.

(* in the second phase the tableau after a pivots comes back after p + 1 more *)
Definition cycles (k a p n : nat) (rows : list lrow) : bool :=
  match lp_StandardTableau n rows with
  | Ok (Some (Some s)) =>
      match FindBfs k s with
      | Ok (Some t1) =>
          match addNE t1 with
          | Ok t2 =>
              strict_ineq t2 &&
              match steps a false (cost_eps t2) with
              | Some t3 => match steps (S p) false t3 with Some t4 => tab_eqb t4 t3 | None => false end
              | None => false
              end
          | _ => false
          end
      | _ => false
      end
  | _ => false
  end.

Lemma cycles_ok k a p n rows : cycles k a p n rows = true -> n <> 0 -> forall fuel, lp_solution fuel n rows = More.
Proof.
  unfold cycles. intros H N fuel. unfold lp_solution. rewrite (proj2 (Nat.eqb_neq n 0) N).
  destruct (lp_StandardTableau n rows) as [[[s|]|]| | |]; try discriminate. cbn [bind].
  destruct (FindBfs k s) as [[t1|]| | |] eqn:E; try discriminate.
  destruct (FindBfs_det k s _ E fuel) as [X|X]; rewrite X; cbn [bind]; [reflexivity|].
  destruct (addNE t1) as [t2| | |]; try discriminate. cbn [bind]. apply andb_true_iff in H. destruct H as (H1 & H2). rewrite H1.
  destruct (steps a false (cost_eps t2)) as [t3|] eqn:SA; [|discriminate].
  destruct (steps (S p) false t3) as [t4|] eqn:ST; [|discriminate]. apply tab_eqb_ok in H2. subst t4.
  unfold solveStrictIneq. destruct (steps_simplex false a _ _ fuel SA) as [Y|Y]; rewrite Y; [reflexivity|].
  rewrite (cycle false p _ ST). reflexivity.
Qed.

(* an example of Beale's *)
Definition beale : list constraint :=
  ([([0; 0; 0; -1; -1; -1; -1], ("<=", 0)); ([0; 0; 0; -3; 80; -2; 24], ("<", 1)); ([4; 0; 0; 1; -32; -4; 36], ("=", 0));
   ([0; 2; 0; 1; -24; -1; 6], ("=", 0)); ([0; 0; 1; 0; 0; 1; 0], ("=", 1));
   ([1; 0; 0; 0; 0; 0; 0], (">=", 0)); ([0; 1; 0; 0; 0; 0; 0], (">=", 0)); ([0; 0; 1; 0; 0; 0; 0], (">=", 0));
   ([0; 0; 0; 1; 0; 0; 0], (">=", 0)); ([0; 0; 0; 0; 1; 0; 0], (">=", 0)); ([0; 0; 0; 0; 0; 1; 0], (">=", 0));
   ([0; 0; 0; 0; 0; 0; 1], (">=", 0))]%string)%Z.
Lemma beale_more fuel : LP fuel beale = More.
Proof.
  unfold LP. change (columns beale) with (Some 7). unfold lp_feasible. change (7 =? 0) with false.
  rewrite (cycles_ok 20 10 5 7); [reflexivity| |discriminate]. vm_compute. reflexivity.
Qed.

Lemma beale_independent : independent (equations beale).
Proof.
  intros lam L Z. destruct lam as [|a [|b [|c [|]]]]; try discriminate L.
  pose proof (Z 1) as Z1. pose proof (Z 2) as Z2. pose proof (Z 3) as Z3. clear Z L.
  unfold lincomb, equations, beale in *. cbn [filter map fst snd rel rhs coeffs String.eqb Ascii.eqb Bool.eqb andb negb zero_rowb forallb Z.eqb combine nth fold_right] in *.
  change (inj 0) with (Q2Qc 0) in *. change (inj 1) with (Q2Qc 1) in *.
  repeat constructor.
  - apply (Qcmult_integral_l (inj 4)); [intros E; discriminate (f_equal this E)|]. rewrite <- Z1. ring.
  - apply (Qcmult_integral_l (inj 2)); [intros E; discriminate (f_equal this E)|]. rewrite <- Z2. ring.
  - rewrite <- Z3. ring.
Qed.

(* a test for solutions *)
Definition satb (x : list Qc) (r : constraint) : bool :=
  let a := dot (map inj (coeffs r)) x in let b := inj (rhs r) in
  if String.eqb (rel r) "=" then qeq a b
  else if String.eqb (rel r) "<" then qlt a b
  else if String.eqb (rel r) "<=" then negb (qlt b a)
  else if String.eqb (rel r) ">" then qlt b a
  else if String.eqb (rel r) ">=" then negb (qlt a b)
  else if String.eqb (rel r) "<>" then negb (qeq a b) else false.
Lemma satb_ok x r : satb x r = true <-> satisfies x r.
Proof.
  unfold satb, satisfies, holds_rel. set (a := dot _ _). set (b := inj _).
  destruct (String.eqb_spec (rel r) "=") as [E|E1]; [rewrite E, qeq_iff; intuition discriminate|].
  destruct (String.eqb_spec (rel r) "<") as [E|E2]; [rewrite E, qlt_iff; intuition discriminate|].
  destruct (String.eqb_spec (rel r) "<=") as [E|E3]; [rewrite E, negb_true_iff, qlt_false; intuition discriminate|].
  destruct (String.eqb_spec (rel r) ">") as [E|E4]; [rewrite E, qlt_iff; intuition discriminate|].
  destruct (String.eqb_spec (rel r) ">=") as [E|E5]; [rewrite E, negb_true_iff, qlt_false; intuition discriminate|].
  destruct (String.eqb_spec (rel r) "<>") as [E|E6]; [rewrite E, negb_true_iff, qeq_false; intuition discriminate|].
  intuition discriminate.
Qed.
Lemma solution_test n l x : (length x =? n) && forallb (satb x) l = true <-> solution n l x.
Proof.
  unfold solution. rewrite andb_true_iff, Nat.eqb_eq, forallb_forall, Forall_forall. split; intros (H1 & H2); (split; [exact H1|]); intros r R; apply satb_ok, H2, R.
Qed.

Lemma beale_solution : solution 7 beale (map inj [0; 0; 1; 0; 0; 0; 0]%Z).
Proof. apply solution_test. vm_compute. reflexivity. Qed.
(* ---- concrete cases ---- *)
Ltac decide_rels := repeat (apply Forall_cons; [unfold plain_rel; cbn; tauto|]); apply Forall_nil.
Ltac by_test := apply solution_test; vm_compute; reflexivity.

Lemma cycle_example : exists l, of_width 7 l /\ Forall (fun r => plain_rel (rel r)) l /\ independent (equations l) /\
  (exists x, solution 7 l x) /\ forall fuel, LP fuel l = More.
Proof.
  exists beale. split; [repeat constructor|]. split; [decide_rels|]. split; [exact beale_independent|].
  split; [eexists; exact beale_solution|exact beale_more].
Qed.

Lemma independent_nil : independent [].
Proof. intros [|v lam] L _; [constructor|discriminate]. Qed.
Lemma independent_one c : (exists j, nth j c 0%Qc = 1%Qc) -> independent [c].
Proof.
  intros (j & J) [|v [|]] L Z; try discriminate L. specialize (Z j). unfold lincomb in Z. cbn in Z. rewrite J in Z.
  repeat constructor. rewrite <- Z. ring.
Qed.

Lemma decides_example : exists l l',
  of_width 2 l /\ Forall (fun r => plain_rel (rel r)) l /\ independent (equations l) /\ LP 20 l = Ok (Some true) /\
  of_width 2 l' /\ Forall (fun r => plain_rel (rel r)) l' /\ independent (equations l') /\ LP 20 l' = Ok (Some false).
Proof.
  exists [([1; 1], ("=", 2)); ([1; -1], ("<", 1)); ([1; 0], (">=", 0)); ([0; 1], (">", 1))]%Z%string.
  exists [([1; 1], ("=", 2)); ([1; -1], ("<", 1)); ([1; 0], (">=", 0)); ([0; 1], ("<", 0))]%Z%string.
  split; [repeat constructor|]. split; [decide_rels|].
  split; [apply independent_one; exists 1; reflexivity|]. split; [vm_compute; reflexivity|].
  split; [repeat constructor|]. split; [decide_rels|].
  split; [apply independent_one; exists 1; reflexivity|]. vm_compute. reflexivity.
Qed.

Definition ones : list constraint := repeat ([1%Z], ("="%string, 1%Z)) 4.
Lemma dependent_stops : exists l, of_width 1 l /\ Forall (fun r => plain_rel (rel r)) l /\
  (exists x, solution 1 l x) /\ (forall fuel, 9 <= fuel -> LP fuel l = Die).
Proof.
  exists ones. split; [repeat constructor|]. split; [decide_rels|]. split; [exists [1%Qc]; by_test|].
  intros fuel F. unfold LP. change (columns ones) with (Some 1). unfold lp_feasible, lp_solution. change (1 =? 0) with false.
  assert (H : match lp_StandardTableau 1 (map mk_lrow ones) with
    | Ok (Some (Some s)) => match simplex 9 true (artificial s) with
        | Ok (t1, ub) => negb ub && qeq (get t1 0 0) q0 && match drive_out t1 with Die => true | _ => false end | _ => false end
    | _ => false end = true) by (vm_compute; reflexivity).
  destruct (lp_StandardTableau 1 (map mk_lrow ones)) as [[[s|]|]| | |]; try discriminate. cbn [bind].
  unfold FindBfs. destruct (simplex 9 true (artificial s)) as [[t1 ub]| | |] eqn:E; try discriminate.
  assert (M : forall k t v, simplex k true t = Ok v -> forall k', k <= k' -> simplex k' true t = Ok v).
  { clear. induction k as [|k IH]; intros t v H k' K; [discriminate|]. destruct k' as [|k']; [lia|]. cbn [simplex] in *.
    destruct (simplex_step true t) as [[t1|ub]| | |]; try discriminate; cbn [bind] in *; [apply IH; [exact H|lia]|exact H]. }
  rewrite (M 9 _ _ E fuel F). cbn [bind]. destruct ub; [discriminate|]. destruct (qeq (get t1 0 0) q0); [|discriminate].
  destruct (drive_out t1); try discriminate. reflexivity.
Qed.

Lemma dependent_wrong : exists l, of_width 1 l /\ Forall (fun r => plain_rel (rel r)) l /\
  ~ (exists x, solution 1 l x) /\ exists fuel, LP fuel l = Ok (Some true).
Proof.
  exists [([1%Z], ("="%string, 0%Z)); ([1%Z], ("="%string, 0%Z)); ([1%Z], (">"%string, 0%Z))].
  split; [repeat constructor|]. split; [decide_rels|]. split; [|exists 20; vm_compute; reflexivity].
  intros (x & L & S). destruct x as [|v [|]]; try discriminate L.
  inversion S as [|? ? S1 S']; subst. inversion S' as [|? ? _ S'']; subst. inversion S'' as [|? ? S3 _]; subst.
  apply satb_ok in S1, S3. cbn [satb rel rhs coeffs fst snd map dot String.eqb Ascii.eqb Bool.eqb] in S1, S3.
  apply qeq_iff in S1. apply qlt_iff in S3. change (inj 1) with 1%Qc in *. change (inj 0) with 0%Qc in *. rewrite S1 in S3. revert S3. apply Qcle_not_lt, Qcle_refl.
Qed.

Lemma ne_wrong : exists l l',
  of_width 1 l /\ of_width 1 l' /\ equations l = [] /\ equations l' = [] /\
  (~ exists x, solution 1 l x) /\ (exists fuel, LP fuel l = Ok (Some true)) /\
  (exists x, solution 1 l' x) /\ (exists fuel, LP fuel l' = Ok (Some false)).
Proof.
  exists [([1%Z], ("<>"%string, 0%Z)); ([1%Z], ("<="%string, 0%Z)); ([1%Z], (">="%string, 0%Z))].
  exists [([-2], ("<", 1)); ([-2], (">=", -1)); ([-1], ("<>", 0)); ([2], (">", 0)); ([1], ("<>", 0))]%Z%string.
  split; [repeat constructor|]. split; [repeat constructor|]. split; [reflexivity|]. split; [reflexivity|].
  split; [|split; [exists 20; vm_compute; reflexivity|split; [exists [Q2Qc (1 # 4)]; by_test|exists 20; vm_compute; reflexivity]]].
  intros (x & L & S). destruct x as [|v [|]]; try discriminate L.
  inversion S as [|? ? S1 S']; subst. inversion S' as [|? ? S2 S'']; subst. inversion S'' as [|? ? S3 _]; subst.
  apply satb_ok in S1, S2, S3. cbn [satb rel rhs coeffs fst snd map dot String.eqb Ascii.eqb Bool.eqb] in S1, S2, S3.
  apply negb_true_iff in S1, S2, S3. apply qeq_false in S1. apply qlt_false in S2, S3. apply S1. apply Qcle_antisym; assumption.
Qed.

Lemma solution_example : exists l ps, of_width 2 l /\ Forall (fun r => plain_rel (rel r)) l /\ independent (equations l) /\
  (forall j, j < 2 -> exists r, In r l /\ nonneg_row j r) /\ LPsol 20 l = Ok (Some ps) /\ ps = [(2, 3); (4, 3)]%Z.
Proof.
  exists [([1; 1], ("=", 2)); ([1; 0], (">=", 0)); ([0; 1], (">=", 0)); ([3; 0], ("<=", 2))]%Z%string. eexists.
  split; [repeat constructor|]. split; [decide_rels|]. split; [apply independent_one; exists 1; reflexivity|].
  split; [|split; [vm_compute; reflexivity|reflexivity]].
  intros [|[|j]] J; [| |lia].
  - exists ([1; 0]%Z, (">="%string, 0%Z)). split; [right; left; reflexivity|]. repeat split; [cbn; lia|]. intros [|[|[|k]]]; reflexivity.
  - exists ([0; 1]%Z, (">="%string, 0%Z)). split; [right; right; left; reflexivity|]. repeat split; [cbn; lia|]. intros [|[|[|k]]]; reflexivity.
Qed.

Lemma negative_wrong : exists l ps fuel, of_width 1 l /\ Forall (fun r => plain_rel (rel r)) l /\ independent (equations l) /\
  LPsol fuel l = Ok (Some ps) /\ ps <> [] /\ ~ solution 1 (map relax l) (map ratio ps).
Proof.
  exists [([1%Z], ("="%string, (-3)%Z))], [(3, 1)%Z], 20. split; [repeat constructor|]. split; [decide_rels|].
  split; [apply independent_one; exists 1; reflexivity|]. split; [vm_compute; reflexivity|]. split; [discriminate|].
  intros S. apply solution_test in S. vm_compute in S. discriminate.
Qed.

Lemma strict_wrong : exists l ps fuel, of_width 1 l /\ Forall (fun r => plain_rel (rel r)) l /\ independent (equations l) /\
  (forall j, j < 1 -> exists r, In r l /\ nonneg_row j r) /\
  LPsol fuel l = Ok (Some ps) /\ ps <> [] /\ ~ solution 1 l (map ratio ps).
Proof.
  exists [([1%Z], (">"%string, 0%Z)); ([1%Z], (">="%string, 0%Z))], [(0, 1)%Z], 20. split; [repeat constructor|]. split; [decide_rels|].
  split; [apply independent_nil|]. split; [|split; [vm_compute; reflexivity|split; [discriminate|]]].
  - intros [|j] J; [|lia]. exists ([1%Z], (">="%string, 0%Z)). split; [right; left; reflexivity|]. repeat split; [cbn; lia|]. intros [|[|k]]; reflexivity.
  - intros S. apply solution_test in S. vm_compute in S. discriminate.
Qed.
