(** * Instances of a heap, programs to look at, and what goes wrong *)

From Coq Require Import String List Bool Arith ZArith Lia.
From Verif Require Import GredModel GredSpec GredConf GredFail GredHeap GredParts GredFire GredThms GredMain.
Import ListNotations.
Open Scope list_scope.
Open Scope nat_scope.

(** ** The heap with the variables replaced by constants *)

Definition inst_nd (s : nat -> bool) (n : node) : node :=
  match n with Bool f => Bool (if sem s f then FOne else FZero) | _ => n end.

Definition inst (s : nat -> bool) (h : heap) : heap :=
  map (fun c => mk_cell (forced c) (inst_nd s (nd c))) h.

Lemma inst_get s h a : get (inst s h) a = option_map (inst_nd s) (get h a).
Proof.
  unfold get, inst. rewrite nth_error_map. destruct (nth_error h a); reflexivity.
Qed.

Lemma inst_tree s s' h a t : tree s h a t -> tree s' (inst s h) a t.
Proof.
  induction 1; pose proof (inst_get s h a) as G; rewrite H in G; cbn in G.
  - eapply tree_app; eassumption.
  - eapply tree_cons; eassumption.
  - now apply tree_nil.
  - now apply tree_int.
  - now apply tree_str.
  - replace (TBool (sem s f)) with (TBool (sem s' (if sem s f then FOne else FZero)))
      by (destruct (sem s f); reflexivity).
    now apply tree_bool.
  - now apply tree_prm.
  - now apply tree_fail.
Qed.

Lemma inst_fresh s h : fresh h -> fresh (inst s h).
Proof.
  intros F a. specialize (F a). unfold is_forced in *. unfold inst.
  rewrite nth_error_map. destruct (nth_error h a); cbn; auto.
Qed.

Lemma inst_no_vars s h : no_vars (inst s h).
Proof.
  intros a f G. rewrite inst_get in G. destruct (get h a) as [[]|]; try discriminate G.
  cbn in G. injection G as <-. destruct (sem s f0); reflexivity.
Qed.

Lemma inst_graph s s' h : graph s h -> graph s' (inst s h).
Proof.
  intros G x X. unfold inst in X. rewrite map_length in X.
  destruct (G _ X) as (t & T & P). exists t. split; [now apply inst_tree|exact P].
Qed.

(** A run on symbolic data, looked at under an assignment, and a run on the
    data that the assignment gives agree. *)
Theorem symbolic_is_concrete s fuel h a h' d fuel' h2 d2 :
  fresh h -> graph s h -> a < length h ->
  force_top fuel Code h a = Ret h' a -> force_top fuel (Watch s) h a <> Cut ->
  tree s h' a d -> data d = true ->
  force_top fuel' Code (inst s h) a = Ret h2 a -> tree s h2 a d2 -> data d2 = true ->
  d = d2.
Proof.
  intros F G A E NC T D E2 T2 D2. destruct (G _ A) as (t & TA & _).
  destruct (force_answer s fuel h a h' a t d F G TA E NC T D) as [_ U].
  destruct (force_answer s fuel' (inst s h) a h2 a t d2 (inst_fresh _ _ F)
              (inst_graph s s _ G) (inst_tree _ _ _ _ _ TA) E2
              (concrete_never_cut _ _ _ _ (inst_no_vars s h)) T2 D2) as [S2 _].
  symmetry. now apply U.
Qed.

(** ** Computing trees and normal forms *)

Fixpoint rd (n : nat) (s : nat -> bool) (h : heap) (a : addr) : option tm :=
  match n with
  | O => None
  | S n =>
    match get h a with
    | Some (App l r) =>
      match rd n s h l, rd n s h r with Some t, Some u => Some (TApp t u) | _, _ => None end
    | Some (Cons l r) =>
      match rd n s h l, rd n s h r with Some t, Some u => Some (TCons t u) | _, _ => None end
    | Some Nil => Some TNil
    | Some (Int z) => Some (TInt z)
    | Some (Str x) => Some (TStr x)
    | Some (Bool f) => Some (TBool (sem s f))
    | Some (Prm p) => Some (TPrm p)
    | Some (Fail x) => Some (TFail x)
    | None => None
    end
  end.

Lemma rd_tree n s h : forall a t, rd n s h a = Some t -> tree s h a t.
Proof.
  induction n; intros a t E; [discriminate E|]. cbn in E.
  destruct (get h a) as [[l r|l r| |z|x|f|p|x]|] eqn:G; try discriminate E.
  - destruct (rd n s h l) eqn:L; [|discriminate]. destruct (rd n s h r) eqn:R; [|discriminate].
    injection E as <-. eapply tree_app; eauto.
  - destruct (rd n s h l) eqn:L; [|discriminate]. destruct (rd n s h r) eqn:R; [|discriminate].
    injection E as <-. eapply tree_cons; eauto.
  - injection E as <-. now apply tree_nil.
  - injection E as <-. now apply tree_int.
  - injection E as <-. now apply tree_str.
  - injection E as <-. now apply tree_bool.
  - injection E as <-. now apply tree_prm.
  - injection E as <-. now apply tree_fail.
Qed.

Definition fine (s : nat -> bool) (h : heap) : bool :=
  forallb (fun c => negb (forced c)) h &&
  forallb (fun x => match rd (S (length h)) s h x with Some t => plain t | None => false end)
    (seq 0 (length h)).

Lemma fresh_forallb h : forallb (fun c => negb (forced c)) h = true -> fresh h.
Proof.
  intros H a. unfold is_forced. destruct (nth_error h a) as [c|] eqn:E; [|reflexivity].
  rewrite forallb_forall in H. specialize (H c (nth_error_In _ _ E)). now destruct (forced c).
Qed.

Lemma fine_ok s h : fine s h = true -> fresh h /\ graph s h.
Proof.
  intros H. apply andb_prop in H. destruct H as [H1 H2]. split.
  - now apply fresh_forallb.
  - intros x X. rewrite forallb_forall in H2. specialize (H2 x).
    rewrite in_seq in H2. specialize (H2 ltac:(lia)).
    destruct (rd (S (length h)) s h x) as [t|] eqn:E; [|discriminate].
    exists t. split; [eapply rd_tree; exact E|exact H2].
Qed.

Fixpoint devs (n : nat) (t : tm) : tm := match n with O => t | S n => devs n (dev t) end.

Lemma devs_steps n : forall t, steps t (devs n t).
Proof.
  induction n; intros t; [constructor|]. cbn.
  eapply steps_trans; [apply par_steps, par_dev_self|apply IHn].
Qed.

(** What a run leaves at its node, as a tree. *)
Definition answer (s : nat -> bool) (x : res) : option tm :=
  match x with Ret h a => rd 50 s h a | _ => None end.

Definition mk (l : list node) : heap := map (mk_cell false) l.

(** ** [let x = a AND b in (IF c THEN x ELSE NOT x), hd [x, error], suc 4] *)
Definition good_heap : heap := mk
  [ Prm P_VOID;
    Prm P_AND; Bool (FVar 0); Bool (FVar 1); App 1 2; App 4 3;          (* 5: x *)
    Prm P_NOT; App 6 5;                                                 (* 7: NOT x *)
    Prm P_COND; Bool (FVar 2); App 8 9; App 10 5; App 11 7;             (* 12 *)
    Prm P_ERROR; Str "no"; App 13 14; Nil; Cons 15 16; Cons 5 17;       (* 18 *)
    Prm P_HEAD; App 19 18;                                              (* 20 *)
    Prm P_SUC; Int 4; App 21 22;                                        (* 23 *)
    Prm P_CONS; App 24 23; App 25 16;                                   (* 26 *)
    App 24 20; App 27 26;                                               (* 28 *)
    Cons 12 28 ].                                                       (* 29 *)

Definition s_ex : nat -> bool := fun n => match n with 0 | 1 => true | _ => false end.

Example good_heap_fine : fine s_ex good_heap = true.
Proof. vm_compute. reflexivity. Qed.

Example good_heap_runs :
  answer s_ex (force_top 60 Code good_heap 29) =
  Some (TCons (TBool false) (TCons (TBool true) (TCons (TInt 5) TNil))).
Proof. vm_compute. reflexivity. Qed.

Example good_heap_not_cut : answer s_ex (force_top 60 (Watch s_ex) good_heap 29) <> None.
Proof. vm_compute. discriminate. Qed.

Example good_heap_data :
  match answer s_ex (force_top 60 Code good_heap 29) with Some d => data d | None => false end = true.
Proof. vm_compute. reflexivity. Qed.

Example good_heap_instance :
  answer s_ex (force_top 60 Code (inst s_ex good_heap) 29) =
  answer s_ex (force_top 60 Code good_heap 29).
Proof. vm_compute. reflexivity. Qed.

(** ** [let x = IF a THEN b ELSE c in IF a THEN x ELSE NOT x] *)
Definition shared_heap : heap := mk
  [ Prm P_VOID;
    Prm P_COND; Bool (FVar 0); Bool (FVar 1); Bool (FVar 2);
    App 1 2; App 5 3; App 6 4;                      (* 7: x *)
    Prm P_NOT; App 8 7;                             (* 9: NOT x *)
    App 1 2; App 10 7; App 11 9 ].                  (* 12 *)

Definition s_sh : nat -> bool := fun n => match n with 2 => true | _ => false end.

Definition shared_end : heap :=
  match force_top 60 Code shared_heap 12 with Ret h _ => h | _ => [] end.

Lemma shared_run : force_top 60 Code shared_heap 12 = Ret shared_end 12.
Proof. vm_compute. reflexivity. Qed.

Lemma shared_fine : fine s_sh shared_heap = true.
Proof. vm_compute. reflexivity. Qed.

Lemma shared_answer : rd 50 s_sh shared_end 12 = Some (TBool true).
Proof. vm_compute. reflexivity. Qed.

Definition shared_tree : tm :=
  match rd 50 s_sh shared_heap 12 with Some t => t | None => TNil end.

Lemma shared_tree_ok : rd 50 s_sh shared_heap 12 = Some shared_tree.
Proof. vm_compute. reflexivity. Qed.

Lemma shared_right : devs 9 shared_tree = TBool false.
Proof. vm_compute. reflexivity. Qed.

Theorem sharing_wrong : exists s h a t h' fuel d v,
  fresh h /\ graph s h /\ tree s h a t /\ force_top fuel Code h a = Ret h' a /\
  tree s h' a d /\ data d = true /\ steps t v /\ data v = true /\ v <> d.
Proof.
  destruct (fine_ok _ _ shared_fine) as [F G].
  exists s_sh, shared_heap, 12, shared_tree, shared_end, 60, (TBool true), (TBool false).
  split; [exact F|]. split; [exact G|].
  split; [exact (rd_tree _ _ _ _ _ shared_tree_ok)|].
  split; [exact shared_run|]. split; [exact (rd_tree _ _ _ _ _ shared_answer)|].
  split; [reflexivity|]. split; [rewrite <- shared_right; apply devs_steps|].
  split; [reflexivity|discriminate].
Qed.

(** ** [IF a THEN (IF a THEN b ELSE error) ELSE (IF a THEN error ELSE c)] *)
Definition nested_heap : heap := mk
  [ Prm P_VOID;
    Prm P_COND; Bool (FVar 0); Bool (FVar 1); Bool (FVar 2);
    Prm P_ERROR; Str "no"; App 5 6; App 5 6;        (* 7, 8 *)
    App 1 2; App 9 3; App 10 7;                     (* 11 *)
    App 1 2; App 12 8; App 13 4;                    (* 14 *)
    App 1 2; App 15 11; App 16 14 ].                (* 17 *)

Example nested_fine : fine s_sh nested_heap = true.
Proof. vm_compute. reflexivity. Qed.
Example nested_runs :
  answer s_sh (force_top 60 Code nested_heap 17) = Some (TBool true) /\
  answer s_ex (force_top 60 Code nested_heap 17) = Some (TBool true) /\
  answer (fun _ => false) (force_top 60 Code nested_heap 17) = Some (TBool false).
Proof. repeat split; vm_compute; reflexivity. Qed.

(** ** [(IF a THEN error "x" ELSE T) catch F] *)
Definition catch_heap : heap := mk
  [ Prm P_VOID;
    Prm P_COND; Bool (FVar 0); Prm P_ERROR; Str "x"; App 3 4; Bool FOne;
    App 1 2; App 7 5; App 8 6;                       (* 9 *)
    Prm P_CATCH; App 10 9; Bool FZero; App 11 12 ].  (* 13 *)

(** ** [IF a THEN NONE ELSE SOME T], with [SOME T] as a pair *)
Definition none_heap : heap := mk
  [ Prm P_VOID;
    Prm P_COND; Bool (FVar 0); Str s_NONE; Str "!,.:SOME"; Bool FOne; Cons 4 5;
    App 1 2; App 7 3; App 8 6 ].                     (* 9 *)

Definition instance_right (h : heap) (a : addr) (s : nat -> bool) : Prop :=
  forall fuel h' d fuel' h2 d2,
  force_top fuel Code h a = Ret h' a -> tree s h' a d -> data d = true ->
  force_top fuel' Code (inst s h) a = Ret h2 a -> tree s h2 a d2 -> data d2 = true -> d = d2.

Definition end_of (x : res) : heap := match x with Ret h _ => h | _ => [] end.

Theorem catch_wrong : fresh catch_heap /\ ~ instance_right catch_heap 13 (fun _ => false).
Proof.
  split; [apply fresh_forallb; vm_compute; reflexivity|]. intros H.
  assert (E : TBool false = TBool true); [|discriminate E].
  apply (H 60 (end_of (force_top 60 Code catch_heap 13)) (TBool false)
           60 (end_of (force_top 60 Code (inst (fun _ => false) catch_heap) 13)) (TBool true)).
  - vm_compute. reflexivity.
  - apply (rd_tree 9). vm_compute. reflexivity.
  - reflexivity.
  - vm_compute. reflexivity.
  - apply (rd_tree 9). vm_compute. reflexivity.
  - reflexivity.
Qed.

Theorem none_wrong : fresh none_heap /\ ~ instance_right none_heap 9 (fun _ => true).
Proof.
  split; [apply fresh_forallb; vm_compute; reflexivity|]. intros H.
  assert (E : TCons (TStr "!,.:SOME") (TBool true) = TStr s_NONE); [|discriminate E].
  apply (H 60 (end_of (force_top 60 Code none_heap 9)) _
           60 (end_of (force_top 60 Code (inst (fun _ => true) none_heap) 9)) _).
  - vm_compute. reflexivity.
  - apply (rd_tree 9). vm_compute. reflexivity.
  - reflexivity.
  - vm_compute. reflexivity.
  - apply (rd_tree 9). vm_compute. reflexivity.
  - reflexivity.
Qed.

(** ** [([l] fseq 0) catch (l fseq 1)] with [l = [error "x"]] *)
Definition flag_heap : heap := mk
  [ Prm P_VOID;
    Prm P_ERROR; Str "x"; App 1 2; Nil; Cons 3 4;    (* 5: l *)
    Cons 5 4;                                        (* 6: [l] *)
    Prm P_FSEQ; App 7 6; Int 0; App 8 9;             (* 10 *)
    App 7 5; Int 1; App 11 12;                       (* 13 *)
    Prm P_CATCH; App 14 10; App 15 13 ].             (* 16 *)

Theorem flag_wrong : exists h e b x m m', fresh h /\ no_vars h /\
  get h x = Some (App 15 b) /\ get h 15 = Some (App 14 e) /\ get h 14 = Some (Prm P_CATCH) /\
  answer (fun _ => true) (force_top 60 Code h e) = Some (TFail m) /\
  answer (fun _ => true) (force_top 60 Code h b) = Some (TFail m') /\
  answer (fun _ => true) (force_top 60 Code h x) = Some (TInt 1).
Proof.
  exists flag_heap, 10, 13, 16, "x"%string, "x"%string.
  split; [apply fresh_forallb; vm_compute; reflexivity|].
  split.
  { intros a f G. do 17 (destruct a as [|a]; [discriminate G|]). destruct a; discriminate G. }
  repeat (split; [vm_compute; reflexivity|]). vm_compute. reflexivity.
Qed.

(** ** [IF F THEN 1 ELSE suc (suc 3)], interrupted during the [else] branch *)
Definition stop_heap : heap := mk
  [ Prm P_VOID;
    Prm P_COND; Bool FZero; Int 1; Prm P_SUC; Int 3; App 4 5; App 4 6; (* 7 *)
    App 1 2; App 8 3; App 9 7 ].                                       (* 10 *)

Theorem stop_wrong : exists h a h1, fresh h /\ no_vars h /\ graph (fun _ => true) h /\
  force_top 6 Code h a = Stop h1 /\
  answer (fun _ => true) (force_top 60 Code h a) = Some (TInt 5) /\
  force_top 60 Code h1 a = Die.
Proof.
  exists stop_heap, 10, (match force_top 6 Code stop_heap 10 with Stop h => h | _ => [] end).
  assert (FI : fine (fun _ => true) stop_heap = true) by (vm_compute; reflexivity).
  destruct (fine_ok _ _ FI) as [F G].
  split; [exact F|]. split.
  { intros a f E. do 2 (destruct a as [|a]; [discriminate E|]).
    destruct a as [|a]; [injection E as <-; reflexivity|].
    do 8 (destruct a as [|a]; [discriminate E|]). destruct a; discriminate E. }
  split; [exact G|].
  split; [vm_compute; reflexivity|]. split; vm_compute; reflexivity.
Qed.
