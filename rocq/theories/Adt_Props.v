(* C63: abstract types hide what they do not export. *)
From Coq Require Import Arith List Bool.
From Verif Require Import AdtModel AdtSpec AdtThms AdtEx.
Import ListNotations.

(* C63: after any sequence of definitions and nested abstract types, every name means what it
   means in the scopes: the exports of an abstract type are its last definitions, and every
   other name means what it meant before the abstract type.  Full statement: without `apart`,
   and also with lettype and export inside abstract types; see the refuted ones. *)
Theorem C63_scopes_partial : forall p e, scope p start = Some e -> apart p ->
  forall n, meaning (run (typed p) init) n = e n.
Proof. exact scopes_ok. Qed.
Print Assumptions C63_scopes_partial.
Example C63_ex : apart program /\ exists e, scope program start = Some e /\
  map e [1; 2; 3; 4; 5; 6] = [Some 10; Some 22; None; Some 43; Some 50; None] /\
  map (meaning (run (typed program) init)) [1; 2; 3; 4; 5; 6] =
    [Some 10; Some 22; None; Some 43; Some 50; None].
Proof.
  split.
  - cbn. split; [|auto]. intros n [<-|[<-|[]]] [H|[]]; discriminate.
  - eexists. split; [reflexivity|]. split; reflexivity.
Qed.

(* C63: the constructors of a type that is declared in an abstract type are known outside,
   though nothing is exported. *)
Theorem C63_types_refuted : exists c v,
  meaning (run [Begin_abstype; Type_ [c] v; Let 2 5; End_abstype [2]] init) c = Some v /\ v <> 0.
Proof. exists 1, 7. split; [reflexivity|discriminate]. Qed.
Print Assumptions C63_types_refuted.
(* C63: a name that is exported means what an inner abstract type has defined and hidden. *)
Theorem C63_inner_refuted : exists p n v w,
  ~ apart p /\ (exists e, scope p start = Some e /\ e n = Some v) /\
  meaning (run (typed p) init) n = Some w /\ v <> w.
Proof.
  exists (Abstype (Define 1 10 (Abstype (Define 1 11 Done) [] Done)) [1] Done), 1, 10, 11.
  split; [intros (H & _); apply (H 1); simpl; auto|].
  split; [eexists; split; reflexivity|]. split; [reflexivity|discriminate].
Qed.
Print Assumptions C63_inner_refuted.
(* C63: if a name is exported twice, it means its first definition, though the second one was
   in force at the end; and an export out of an inner abstract type goes out of the outer one. *)
Theorem C63_export_refuted :
  (exists n v w, v <> w /\
     meaning (run [Begin_abstype; Let n v; Export n; Let n w; Export n] init) n = Some w /\
     meaning (run [Begin_abstype; Let n v; Export n; Let n w; Export n; End_abstype []] init) n = Some v) /\
  (exists n v,
     meaning (run [Begin_abstype; Begin_abstype; Let n v; Export n; End_abstype []; End_abstype []] init) n = Some v).
Proof.
  split.
  - exists 1, 10, 11. repeat split; auto.
  - exists 1, 10. reflexivity.
Qed.
Print Assumptions C63_export_refuted.
(* C63: after an inner abstract type that exports an unknown name, a hidden definition of the
   outer one takes the meaning from the name for good. *)
Theorem C63_error_refuted : exists n v w unknown,
  meaning (run [Let n v] init) n = Some v /\ meaning (run [Let n v] init) unknown = None /\
  meaning (run [Let n v; Begin_abstype; Begin_abstype; End_abstype [unknown]; Let n w; End_abstype []] init) n = None.
Proof. exists 1, 10, 11, 2. repeat split; reflexivity. Qed.
Print Assumptions C63_error_refuted.
