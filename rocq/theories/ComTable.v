(* The table of functions after InsertOverloadDef. *)
From Coq Require Import String List Bool Arith Lia.
From Verif Require Import TyModel TyThms InfModel InfSpec InfThms InfRun InfTop InfEnd InfEx
  OvModel OvSpec OvPath OvStore OvThms OvEnd OvCheck OvUse OvTopEx ComModel ComSpec ComThms ComTop.
Import ListNotations.
Open Scope list_scope.

Section Ar.
Variable ar : con -> nat.

Lemma good_unique h S S' : good ar h S -> reading h S' -> (forall p, nth_error h p = Some NVar -> S' p = Nd (LVar p) []) ->
  agree (length h) S S'.
Proof.
  intros ((IR & AC & _) & R & V) R' V' p. induction (AC p) as [p _ IH]. intros L.
  destruct (nth_error h p) as [n|] eqn:N; [|apply nth_error_None in N; lia].
  pose proof (R _ _ N) as RN. pose proof (R' _ _ N) as RN'. destruct n as [|a|c k].
  - now rewrite (V _ N), (V' _ N).
  - rewrite RN, RN'. apply IH; [exists (NInd a); split; [assumption|now left]|eapply IR; eauto; now left].
  - rewrite RN, RN'. f_equal. apply map_ext_in. intros a I.
    apply IH; [exists (NCon c k); split; [assumption|exact I]|eapply IR; eauto].
Qed.
Lemma core_app h t k : in_range h -> forall p c, p < length h -> find_core_type h k p = Some c ->
  c < length h /\ find_core_type (h ++ t) k p = Some c.
Proof.
  intros IR. induction k as [|k IH]; intros p c L E; cbn in *; [injection E as <-; auto|].
  rewrite nth_error_app1 by assumption. destruct (nth_error h p) as [[|a|c0 [|x [|r l]]]|] eqn:N; try discriminate.
  apply IH; [|assumption]. eapply IR; [exact N|right; now left].
Qed.
Lemma core_types_in h fns alts : forall cores, core_types h fns alts = Some cores ->
  forall g G c, In g alts -> nth_error fns g = Some G ->
    find_core_type h (length (fn_impl G)) (fn_type G) = Some c -> In c cores.
Proof.
  induction alts as [|a alts IH]; intros cores E g G c I EG EC; [destruct I|]. cbn in E.
  destruct (nth_error fns a) as [A|] eqn:EA; [|discriminate].
  destruct (find_core_type h (length (fn_impl A)) (fn_type A)) as [x|] eqn:Ex; [|discriminate].
  destruct (core_types h fns alts) as [l|] eqn:El; [|discriminate]. injection E as <-.
  destruct I as [->|I]; [left; congruence|right; eauto].
Qed.
Lemma core_types_lt h fns alts : in_range h -> (forall f F, nth_error fns f = Some F -> fn_type F < length h) ->
  forall cores, core_types h fns alts = Some cores -> forall c, In c cores -> c < length h.
Proof.
  intros IR FT. induction alts as [|a alts IH]; intros cores E c I; cbn in E; [injection E as <-; destruct I|].
  destruct (nth_error fns a) as [A|] eqn:EA; [|discriminate].
  destruct (find_core_type h (length (fn_impl A)) (fn_type A)) as [x|] eqn:Ex; [|discriminate].
  destruct (core_types h fns alts) as [l|] eqn:El; [|discriminate]. injection E as <-.
  destruct I as [<-|I]; [|eauto]. apply (core_app h [] _ IR _ _ (FT _ _ EA) Ex).
Qed.

Theorem insert_ok fuel veq dflt alts fns h sigma fns' h' sigma' cores :
  store ar h -> reading h sigma -> (forall p, nth_error h p = Some NVar -> sigma p = Nd (LVar p) []) ->
  good_table fns sigma h -> general fns sigma ->
  (forall g, In g alts -> good_fn fns sigma h g) ->
  (forall t, dflt = Some t -> t < length h) ->
  core_types h fns alts = Some cores ->
  (exists pos, forall c, In c (all dflt cores) -> placed pos (sigma c)) ->
  insert_overload fuel veq dflt alts fns h = Some (fns', h') ->
  reading h' sigma' -> (forall p, nth_error h' p = Some NVar -> sigma' p = Nd (LVar p) []) ->
  store ar h' /\ good_table fns' sigma' h' /\ general fns' sigma'.
Proof.
  intros St R V GT GEN GA LD EC PL E R' V'. assert (G : good ar h sigma) by (split; [|split]; assumption).
  unfold insert_overload in E. rewrite EC in E.
  destruct (get_common_type fuel veq dflt cores h) as [[q h1]|] eqn:EQ; [|discriminate]. injection E as <- <-.
  destruct (common_type_ok ar fuel veq dflt cores h sigma q h1 G) as (Sg & (t & T) & Lq & GG & _); [|exact EQ|].
  { intros c I. destruct dflt as [d|]; cbn in I.
    - destruct I as [<-|I]; [now apply LD|]. eapply core_types_lt; eauto; [apply St|apply GT].
    - eapply core_types_lt; eauto; [apply St|apply GT]. }
  assert (RH : reading h sigma') by (apply reading_prefix with t; now rewrite <- T).
  assert (AG : agree (length h) sigma sigma').
  { apply good_unique; [assumption|assumption|]. intros p N. apply V'. rewrite T, nth_error_app1; [assumption|].
    eapply nth_lt; eauto. }
  set (new := mkFn q [] true alts).
  assert (FT : forall f u, fun_type fns sigma f u -> fun_type (fns ++ [new]) sigma' f u).
  { intros f u (F & v & EF & ->). exists F, v. split; [rewrite nth_error_app1; [assumption|eapply nth_lt; eauto]|].
    rewrite AG; [reflexivity|]. eapply GT; eauto. }
  assert (GF : forall g, good_fn fns sigma h g -> good_fn (fns ++ [new]) sigma' h1 g).
  { intros g (G0 & c & l & EG & Ec & Es & F2). pose proof (proj1 GT _ _ EG) as LG.
    destruct (core_app h t _ (proj1 St) _ _ LG Ec) as [Lc Ec']. exists G0, c, l.
    split; [rewrite nth_error_app1; [assumption|eapply nth_lt; eauto]|]. split; [now rewrite T|].
    split; [now rewrite !AG|]. clear - F2 FT. induction F2; constructor; auto. }
  assert (GT' : good_table (fns ++ [new]) sigma' h1).
  { split.
    - intros f F EF. destruct (Nat.lt_ge_cases f (length fns)) as [L|L].
      + rewrite nth_error_app1 in EF by assumption. apply (proj1 GT) in EF. rewrite T, app_length. lia.
      + rewrite nth_error_app2 in EF by assumption. destruct (f - length fns) as [|d]; [|destruct d; discriminate].
        injection EF as <-. exact Lq.
    - intros f F g EF I. apply GF. destruct (Nat.lt_ge_cases f (length fns)) as [L|L].
      + rewrite nth_error_app1 in EF by assumption. eapply GT; eauto.
      + rewrite nth_error_app2 in EF by assumption. destruct (f - length fns) as [|d]; [|destruct d; discriminate].
        injection EF as <-. now apply GA. }
  split; [assumption|]. split; [assumption|]. apply general_by with h1; [assumption|].
  intros f F g G0 c EF I EG Ec.
  assert (OLD : good_fn fns sigma h g -> exists G1 c1 l, nth_error fns g = Some G1 /\ G1 = G0 /\ c1 = c
    /\ find_core_type h (length (fn_impl G1)) (fn_type G1) = Some c1 /\ c < length h
    /\ sigma (fn_type G1) = arrows l (sigma c1) /\ Forall2 (fun_type fns sigma) (fn_impl G1) l).
  { intros (G1 & c1 & l & EG1 & Ec1 & Es & F2).
    assert (G1 = G0) as ->.
    { rewrite nth_error_app1 in EG by (eapply nth_lt; eauto). congruence. }
    destruct (core_app h t _ (proj1 St) _ _ (proj1 GT _ _ EG1) Ec1) as [Lc Ec']. rewrite T in Ec.
    assert (c1 = c) as -> by congruence. exists G0, c, l. auto 10. }
  destruct (Nat.lt_ge_cases f (length fns)) as [L|L].
  - rewrite nth_error_app1 in EF by assumption.
    destruct (OLD (proj2 GT _ _ _ EF I)) as (G1 & c1 & l & EG1 & -> & -> & Ec1 & Lc & Es & F2).
    assert (CA : call fns sigma g (sigma c) (filter (fun u => overloaded fns (fst u))
        (combine (g :: fn_impl G0) (arrows l (sigma c) :: l)))).
    { exists G0, l. split; [assumption|]. split; [|auto]. exists G0, sigma. split; [assumption|].
      rewrite <- Es. apply (reading_types ar h sigma sigma St R V R). eapply GT; eauto. }
    destruct (GEN _ _ _ _ _ EF I CA) as (F' & v & EF' & Ev). rewrite EF in EF'. injection EF' as <-.
    exists v. rewrite !AG; auto. eapply GT; eauto.
  - rewrite nth_error_app2 in EF by assumption. destruct (f - length fns) as [|d]; [|destruct d; discriminate].
    injection EF as <-. cbn in I |- *.
    destruct (OLD (GA _ I)) as (G1 & c1 & l & EG1 & -> & -> & Ec1 & Lc & Es & F2).
    apply GG; auto. assert (Ic : In c cores) by (eapply core_types_in; eauto). destruct dflt; [now right|assumption].
Qed.
End Ar.

(* ---- examples ---- *)
(* 0: int, 1: bool, 2: a, 3: int -> int -> bool, ... *)
Definition cm_g : heap :=
  [ NCon CInt []; NCon CBool []; NVar; NVar;
    NCon CArrow [0; 1]; NCon CArrow [0; 4];      (* 5: int -> int -> bool *)
    NCon CArrow [1; 1]; NCon CArrow [1; 6];      (* 7: bool -> bool -> bool *)
    NCon CArrow [2; 2];                          (* 8: a -> a *)
    NCon CList [3]; NCon CArrow [9; 1];          (* 10: b list -> bool *)
    NCon CArrow [9; 10] ].                       (* 11: b list -> b list -> bool *)
Definition cm_sigma : nat -> tree := expand 12 cm_g.
Lemma cm_store : store arity cm_g.
Proof. apply backwards_store. reflexivity. Qed.
Lemma cm_reads : reading cm_g cm_sigma.
Proof.
  intros p n N. unfold cm_sigma. do 12 (destruct p as [|p]; [cbn in N; injection N as <-; exact I || (vm_compute; reflexivity)|]).
  destruct p; discriminate.
Qed.
Lemma cm_vars p : nth_error cm_g p = Some NVar -> cm_sigma p = Nd (LVar p) [].
Proof.
  intros N. unfold cm_sigma. do 12 (destruct p as [|p]; [cbn in N; discriminate || (vm_compute; reflexivity)|]).
  destruct p; discriminate.
Qed.
Definition cm_fns : list fn :=
  [ mkFn 5 [] false []; mkFn 7 [] false []; mkFn 8 [] false []; mkFn 4 [] false []; mkFn 10 [] false [] ].
Lemma cm_table : good_table cm_fns cm_sigma cm_g.
Proof.
  split.
  - intros f F E. do 5 (destruct f as [|f]; [injection E as <-; cbn; lia|]). destruct f; discriminate.
  - intros f F g E I. do 5 (destruct f as [|f]; [injection E as <-; destruct I|]). destruct f; discriminate.
Qed.
Lemma cm_general : general cm_fns cm_sigma.
Proof.
  intros f F g t uses E I. do 5 (destruct f as [|f]; [injection E as <-; destruct I|]). destruct f; discriminate.
Qed.
Lemma cm_good g : g < 5 -> good_fn cm_fns cm_sigma cm_g g.
Proof.
  intros L. do 5 (destruct g as [|g]; [eexists; eexists; exists []; split; [reflexivity|]; split; [reflexivity|];
    split; [reflexivity|constructor]|]). lia.
Qed.

Definition cm_insert (dflt : option nat) (alts : list nat) : list fn * heap :=
  match insert_overload 20 (fun _ => Nat.eqb) dflt alts cm_fns cm_g with
  | Some x => x
  | None => ([], [])
  end.
Definition cm_common (dflt : option nat) (alts : list nat) : option tree :=
  match nth_error (fst (cm_insert dflt alts)) 5 with
  | Some F => Some (expand 20 (snd (cm_insert dflt alts)) (fn_type F))
  | None => None
  end.

(* a -> a and int -> bool *)
Lemma cm_refuted : exists fns h sigma, insert_overload 20 (fun _ => Nat.eqb) None [2; 3] cm_fns cm_g = Some (fns, h)
  /\ store arity h /\ reading h sigma /\ (forall p, nth_error h p = Some NVar -> sigma p = Nd (LVar p) [])
  /\ ~ general fns sigma.
Proof.
  eexists. eexists. exists (expand 20 (snd (cm_insert None [2; 3]))). split; [vm_compute; reflexivity|].
  split; [apply backwards_store; reflexivity|]. split; [|split].
  - intros p n N. do 14 (destruct p as [|p]; [cbn in N; injection N as <-; exact I || (vm_compute; reflexivity)|]).
    destruct p; discriminate.
  - intros p N. do 14 (destruct p as [|p]; [cbn in N; discriminate || (vm_compute; reflexivity)|]).
    destruct p; discriminate.
  - intros GEN. set (t := arrow (tcon CInt []) (tcon CBool [])).
    destruct (GEN 5 (mkFn 13 [] true [2; 3]) 3 t []) as (F & v & EF & Ev).
    + reflexivity.
    + right; now left.
    + exists (mkFn 4 [] false []), []. split; [reflexivity|]. split; [|split; [constructor|reflexivity]].
      exists (mkFn 4 [] false []), (fun _ => t). split; [reflexivity|]. vm_compute. reflexivity.
    + injection EF as <-. vm_compute in Ev. congruence.
Qed.

(* int -> int -> bool, and then bool -> bool -> bool is added *)
Lemma cm_open_refuted : exists fns h sigma, insert_overload 20 (fun _ => Nat.eqb) None [0] cm_fns cm_g = Some (fns, h)
  /\ store arity h /\ reading h sigma /\ (forall p, nth_error h p = Some NVar -> sigma p = Nd (LVar p) [])
  /\ general fns sigma /\ good_table (add_open 5 [1] fns) sigma h /\ ~ general (add_open 5 [1] fns) sigma.
Proof.
  set (h := snd (cm_insert None [0])).
  assert (St : store arity h) by (apply backwards_store; reflexivity).
  assert (Rd : reading h (expand 20 h)).
  { intros p n N. do 16 (destruct p as [|p]; [cbn in N; injection N as <-; exact I || (vm_compute; reflexivity)|]).
    destruct p; discriminate. }
  assert (Vr : forall p, nth_error h p = Some NVar -> expand 20 h p = Nd (LVar p) []).
  { intros p N. do 16 (destruct p as [|p]; [cbn in N; discriminate || (vm_compute; reflexivity)|]).
    destruct p; discriminate. }
  destruct (insert_ok arity 20 (fun _ => Nat.eqb) None [0] cm_fns cm_g cm_sigma (fst (cm_insert None [0])) h (expand 20 h) [5])
    as (_ & GT & GE); try assumption.
  - exact cm_store.
  - exact cm_reads.
  - exact cm_vars.
  - exact cm_table.
  - exact cm_general.
  - intros g [<-|[]]. apply cm_good. lia.
  - discriminate.
  - reflexivity.
  - exists (fun _ => []). intros c [<-|[]] path v k E. vm_compute in E.
    destruct path as [|[|[|i]] path]; try discriminate; [destruct path; [discriminate|]; destruct n; discriminate| |destruct i; discriminate].
    destruct path as [|[|[|i]] path]; try discriminate; [| |destruct i; discriminate];
      (destruct path; [discriminate|]; destruct n; discriminate).
  - vm_compute. reflexivity.
  - exists (fst (cm_insert None [0])), h, (expand 20 h). split; [vm_compute; reflexivity|].
    split; [assumption|]. split; [assumption|]. split; [assumption|]. split; [assumption|]. split.
    + split.
      * intros f F E. do 6 (destruct f as [|f]; [vm_compute in E; injection E as <-; vm_compute; lia|]). destruct f; discriminate.
      * intros f F g E I. do 5 (destruct f as [|f]; [vm_compute in E; injection E as <-; destruct I|]).
        destruct f; [|destruct f; discriminate]. vm_compute in E. injection E as <-.
        assert (L : g < 5) by (destruct I as [<-|[<-|[]]]; lia).
        do 5 (destruct g as [|g]; [eexists; eexists; exists []; split; [reflexivity|]; split; [reflexivity|];
          split; [reflexivity|constructor]|]). lia.
    + intros GEN. set (t := arrow (tcon CBool []) (arrow (tcon CBool []) (tcon CBool []))).
      destruct (GEN 5 (mkFn 15 [] true [0; 1]) 1 t []) as (F & v & EF & Ev).
      * vm_compute. reflexivity.
      * right; now left.
      * exists (mkFn 7 [] false []), []. split; [reflexivity|]. split; [|split; [constructor|reflexivity]].
        exists (mkFn 7 [] false []), (fun _ => t). split; [reflexivity|]. vm_compute. reflexivity.
      * vm_compute in EF. injection EF as <-. vm_compute in Ev. congruence.
Qed.
