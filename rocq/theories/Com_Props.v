(* Property theorems: the type of an overloaded function (C57). *)
From Coq Require Import String List Bool Arith Lia.
From Verif Require Import TyModel InfModel InfSpec InfEx OvModel OvSpec OvUse ComModel ComSpec ComThms ComTop ComTable.
Import ListNotations.
Open Scope list_scope.

(* C57: Get_common_type answers. *)
Theorem C57_answers : forall ar veq dflt cores h sigma,
  store ar h -> reading h sigma -> (forall p, nth_error h p = Some NVar -> sigma p = Nd (LVar p) []) ->
  (forall c, In c (all dflt cores) -> c < length h) ->
  exists n x, forall fuel, n <= fuel -> get_common_type fuel veq dflt cores h = Some x.
Proof.
  intros ar veq dflt cores h sigma St R V.
  exact (common_type_total ar veq dflt cores h sigma (conj St (conj R V))).
Qed.
Print Assumptions C57_answers.

(* C57, the full statement, is that the declared type and the type of every alternative is an
   instance of the answer.  It holds if every type variable has one place, so that no type contains
   one twice.  The existing types are as before. *)
Theorem C57_general_partial : forall ar fuel veq dflt cores h sigma q g,
  store ar h -> reading h sigma -> (forall p, nth_error h p = Some NVar -> sigma p = Nd (LVar p) []) ->
  (forall c, In c (all dflt cores) -> c < length h) ->
  (exists pos, forall c, In c (all dflt cores) -> placed pos (sigma c)) ->
  get_common_type fuel veq dflt cores h = Some (q, g) ->
  store ar g /\ (exists t, g = h ++ t) /\ q < length g
  /\ forall S, reading g S -> (forall p, nth_error g p = Some NVar -> S p = Nd (LVar p) []) ->
     forall c, In c (all dflt cores) -> exists w, S c = inst w (S q).
Proof.
  intros ar fuel veq dflt cores h sigma q g St R V L P E.
  destruct (common_type_ok ar fuel veq dflt cores h sigma q g (conj St (conj R V)) L E) as (Sg & T & Lq & G & _).
  auto.
Qed.
Print Assumptions C57_general_partial.

(* C57: the answer is not too general: what all the types have at a place that is reached through
   arrows, the answer has there, too, up to the names of its variables. *)
Theorem C57_keeps : forall ar fuel veq dflt cores h sigma q g path u,
  store ar h -> reading h sigma -> (forall p, nth_error h p = Some NVar -> sigma p = Nd (LVar p) []) ->
  (forall c, In c (all dflt cores) -> c < length h) ->
  (forall h p, veq h p p = true) -> all dflt cores <> [] ->
  (forall c, In c (all dflt cores) -> asub (sigma c) path = Some u) ->
  get_common_type fuel veq dflt cores h = Some (q, g) ->
  forall r, reading g r -> exists f, asub (r q) path = Some (inst f u).
Proof.
  intros ar fuel veq dflt cores h sigma q g path u St R V L VE N U E.
  destruct (common_type_ok ar fuel veq dflt cores h sigma q g (conj St (conj R V)) L E) as (_ & _ & _ & _ & K).
  exact (K VE N path u U).
Qed.
Print Assumptions C57_keeps.

(* C57: after InsertOverloadDef the table of functions is one for which C55 and C56 hold, if it was
   one before and every type variable of the alternatives has one place. *)
Theorem C57_insert_partial : forall ar fuel veq dflt alts fns h sigma fns' h' sigma' cores,
  store ar h -> reading h sigma -> (forall p, nth_error h p = Some NVar -> sigma p = Nd (LVar p) []) ->
  good_table fns sigma h -> general fns sigma ->
  (forall g, In g alts -> good_fn fns sigma h g) ->
  (forall t, dflt = Some t -> t < length h) ->
  core_types h fns alts = Some cores ->
  (exists pos, forall c, In c (all dflt cores) -> placed pos (sigma c)) ->
  insert_overload fuel veq dflt alts fns h = Some (fns', h') ->
  reading h' sigma' -> (forall p, nth_error h' p = Some NVar -> sigma' p = Nd (LVar p) []) ->
  store ar h' /\ good_table fns' sigma' h' /\ general fns' sigma'.
Proof. exact insert_ok. Qed.
Print Assumptions C57_insert_partial.

(* C57: without that condition it is false: with the alternatives a -> a and int -> bool the
   function has the type c -> c, so it cannot be used as the second one. *)
Theorem C57_general_refuted :
  good_table cm_fns cm_sigma cm_g /\ general cm_fns cm_sigma
  /\ (forall g, In g [2; 3] -> good_fn cm_fns cm_sigma cm_g g)
  /\ exists fns h sigma, insert_overload 20 (fun _ => Nat.eqb) None [2; 3] cm_fns cm_g = Some (fns, h)
     /\ store arity h /\ reading h sigma /\ (forall p, nth_error h p = Some NVar -> sigma p = Nd (LVar p) [])
     /\ ~ general fns sigma.
Proof.
  split; [exact cm_table|]. split; [exact cm_general|]. split; [|exact cm_refuted].
  intros g [<-|[<-|[]]]; apply cm_good; lia.
Qed.
Print Assumptions C57_general_refuted.

(* C57: and AddToOpenOverloadDef, which does not compute the type again, makes a table for which C56
   does not hold: the alternative bool -> bool -> bool that is added to int -> int -> bool cannot be
   used. *)
Theorem C57_open_refuted : exists fns h sigma,
  insert_overload 20 (fun _ => Nat.eqb) None [0] cm_fns cm_g = Some (fns, h)
  /\ store arity h /\ reading h sigma /\ (forall p, nth_error h p = Some NVar -> sigma p = Nd (LVar p) [])
  /\ general fns sigma /\ good_table (add_open 5 [1] fns) sigma h /\ ~ general (add_open 5 [1] fns) sigma.
Proof. exact cm_open_refuted. Qed.
Print Assumptions C57_open_refuted.

(* Non-vacuity: the alternatives int -> bool and b list -> bool. *)
Example C57_ex_hyps : store arity cm_g /\ reading cm_g cm_sigma
  /\ (forall p, nth_error cm_g p = Some NVar -> cm_sigma p = Nd (LVar p) [])
  /\ good_table cm_fns cm_sigma cm_g /\ general cm_fns cm_sigma
  /\ (forall g, In g [3; 4] -> good_fn cm_fns cm_sigma cm_g g)
  /\ core_types cm_g cm_fns [3; 4] = Some [4; 10]
  /\ (forall c, In c (all None [4; 10]) -> placed (fun _ => [0; 0]) (cm_sigma c))
  /\ (forall c, In c (all None [4; 10]) -> asub (cm_sigma c) [1] = Some (tcon CBool [])).
Proof.
  split; [exact cm_store|]. split; [exact cm_reads|]. split; [exact cm_vars|]. split; [exact cm_table|].
  split; [exact cm_general|]. split; [intros g [<-|[<-|[]]]; apply cm_good; lia|]. split; [reflexivity|]. split.
  - intros c [<-|[<-|[]]] path v k E; vm_compute in E.
    + destruct path as [|[|[|i]] [|[|j] path]]; try discriminate; destruct i; discriminate.
    + destruct path as [|[|[|i]] [|[|j] [|[|l] path]]]; try discriminate; try reflexivity;
        try (destruct i; discriminate); destruct j; discriminate.
  - intros c [<-|[<-|[]]]; reflexivity.
Qed.
Example C57_ex_answer : cm_common None [3; 4] = Some (arrow (Nd (LVar 14) []) (tcon CBool [])).
Proof. vm_compute. reflexivity. Qed.
Example C57_ex_two : cm_common None [0; 1] =
  Some (arrow (Nd (LVar 16) []) (arrow (Nd (LVar 17) []) (tcon CBool []))).
Proof. vm_compute. reflexivity. Qed.
(* a declared type that does not fit the alternative is made more general *)
Example C57_ex_declared : cm_common (Some 5) [1] =
  Some (arrow (Nd (LVar 16) []) (arrow (Nd (LVar 17) []) (tcon CBool []))).
Proof. vm_compute. reflexivity. Qed.
Example C57_ex_refuted : cm_common None [2; 3] = Some (arrow (Nd (LVar 12) []) (Nd (LVar 12) [])).
Proof. vm_compute. reflexivity. Qed.
