(* C23, C24, C40: the combinator compiler and the reduction rules. *)
From Coq Require Import String List Bool Arith.
From Verif Require Import CombModel LamSpec CombConf CombThms CombOpt CombEx.
Import ListNotations.
Local Open Scope string_scope.

(* C23.  Whatever the cut-off between the two algorithms, compilation never
   fails, removes every lambda, keeps the free names, and the result is
   beta-eta convertible to the source, for any reading of the free names. *)
Theorem C23_convertible : forall cut t,
  exists c, Compile_with cut t = Some c /\ nolam c = true /\
    (forall y, isfree y c = isfree y t) /\
    forall r, conv (mean r c) (mean r t).
Proof. exact compile_with_ok. Qed.
Print Assumptions C23_convertible.

(* The whole of Compile, for programs free of the compiler's own names. *)
Theorem C23_program : forall cut t, user t ->
  exists c, Compile cut t = Some c /\ forall r, conv (mean r c) (mean r t).
Proof. exact compile_program. Qed.
Print Assumptions C23_program.

(* Applying a compiled lambda.  With directors the application reduces to the
   compiled body with the argument in place of the variable. *)
Theorem C23_apply_large : forall cut x t n, Nat.ltb (size t) cut = false ->
  exists f c, Compile_with cut (Lam x t) = Some f /\ Compile_with cut t = Some c /\
    reds (App f n) (put x n c).
Proof. exact apply_large. Qed.
Print Assumptions C23_apply_large.

(* With the optimised abstraction the two have a common reduct ... *)
Theorem C23_apply_small : forall cut x t n, Nat.ltb (size (Lam x t)) cut = true ->
  exists f c, Compile_with cut (Lam x t) = Some f /\ Compile_with cut t = Some c /\
    exists w, reds (App f n) w /\ reds (put x n c) w.
Proof. exact apply_small. Qed.
Print Assumptions C23_apply_small.

(* ... but the body itself need not be reachable: S' takes B p q apart. *)
Theorem C23_apply_literal_refuted :
  exists f c, Compile_with 100 (Lam "x" ex_body) = Some f /\
    Compile_with 100 ex_body = Some c /\ ~ reds (App f (Cst 3)) (put "x" (Cst 3) c).
Proof. exact apply_literal_refuted. Qed.
Print Assumptions C23_apply_literal_refuted.

(* \x y. x (c1 (x y)) (c2 y), by both algorithms. *)
Example C23_ex :
  Compile_with 100 ex_xy =
    Some (App (App (App (Prm P_CPRIME) (Prm P_S))
                (App (App (Prm P_S) (App (App (Prm P_C) (Prm P_BSTAR)) (Cst 1)))
                     (Prm P_I))) (Cst 2)) /\
  Compile_with 0 ex_xy =
    Some (App (App (App (Prm P_CPRIME) (Prm P_S))
               (App (App (App (Prm P_SPRIME) (Prm P_B)) (Prm P_I))
                  (App (App (App (Prm P_BPRIME) (Prm P_B)) (Cst 1))
                     (App (App (App (Prm P_CPRIME) (Prm P_B)) (Prm P_I))
                        (Prm P_I))))) (App (App (Prm P_B) (Cst 2)) (Prm P_I))).
Proof. split; vm_compute; reflexivity. Qed.
Example C23_ex_user : user ex_xy /\ Nat.ltb (size ex_xy) 100 = true /\
  Nat.ltb (size ex_xy) 5 = false.
Proof.
  split; [|split; reflexivity].
  intros v H (j & [E|E]); subst v; cbn in H; intuition discriminate.
Qed.

(* C24.  Renaming: for a program that does not use the compiler's own names
   (_ZZ'<n>, _Z'<n>) the binders become pairwise different, the term is equal
   to the source up to the names of bound variables (equal in de Bruijn
   notation) when there are no named arguments, and convertible to it always. *)
Theorem C24_rename : forall t t' k, user t -> mk_uniq_names t 0 = (t', k) ->
  NoDup (binders t') /\
  (has_named t = false -> forall r, mean r t' = mean r t) /\
  (forall r, conv (mean r t') (mean r t)).
Proof. exact rename_ok. Qed.
Print Assumptions C24_rename.

(* Replacing a variable by another never captures: the result means the source
   with [old] read as [new], whatever is bound in it, provided only that names
   still to be made are not used. *)
Theorem C24_substitute : forall old new t k t' k',
  substitute old new t k = (t', k') ->
  fresh_from k t -> clear_from k old -> clear_from k new ->
  forall r, mean r t' = mean (upd r old (r new)) t.
Proof. exact substitute_means. Qed.
Print Assumptions C24_substitute.

(* Alias removal: beta convertible. *)
Theorem C24_aliases : forall t k t' k', remove_aliases t k = (t', k') ->
  fresh_from k t -> forall r, conv (mean r t') (mean r t).
Proof. exact aliases_ok. Qed.
Print Assumptions C24_aliases.

Theorem C24_optimise : forall t r, user t -> conv (mean r (Optimise t)) (mean r t).
Proof. exact Optimise_ok. Qed.
Print Assumptions C24_optimise.

(* Identifiers of any spelling: the lexer accepts _ZZ'1, and then the compiler
   captures it.  \_ZZ'1. \y. _ZZ'1 applied to 1 and 2 yields 1 when compiled
   without the renaming and 2 with it. *)
Theorem C24_refuted : exists t,
  meaning (Optimise t) <> meaning t /\
  at2 (Compile_with 100 t) (Cst 1) (Cst 2) = Val (Cst 1) /\
  at2 (Compile 100 t) (Cst 1) (Cst 2) = Val (Cst 2) /\
  at2 (Compile 0 t) (Cst 1) (Cst 2) = Val (Cst 2).
Proof. exact (ex_intro _ capture_ex capture_refuted). Qed.
Print Assumptions C24_refuted.

(* \x. (\y. \x. x y) x: an alias under a shadowing binder. *)
Example C24_ex :
  let t := Lam "x" (App (Lam "y" (Lam "x" (App (Var "x") (Var "y")))) (Var "x")) in
  Optimise t = Lam "_ZZ'0" (Lam "_ZZ'2" (App (Var "_ZZ'2") (Var "_ZZ'0"))).
Proof. vm_compute. reflexivity. Qed.
(* substitution under a binder of the new name *)
Example C24_ex_capture :
  substitute "x" "y" (Lam "y" (App (Var "x") (Var "y"))) 7
  = (Lam "_Z'7" (App (Var "y") (Var "_Z'7")), 8).
Proof. vm_compute. reflexivity. Qed.

(* C40.  Every rewrite replaces a term by a convertible one. *)
Theorem C40_sound : forall t u r, red t u -> conv (mean r t) (mean r u).
Proof. exact red_sound. Qed.
Print Assumptions C40_sound.

(* Any two evaluation orders can be brought together again ... *)
Theorem C40_confluent : forall t u v, reds t u -> reds t v ->
  exists w, reds u w /\ reds v w.
Proof. exact confluence. Qed.
Print Assumptions C40_confluent.

(* ... so they cannot end in different normal forms. *)
Theorem C40_normal_unique : forall t u v,
  reds t u -> reds t v -> normal u -> normal v -> u = v.
Proof. exact normal_unique. Qed.
Print Assumptions C40_normal_unique.

(* The evaluator only takes such steps, and stops at a constant or at a
   primitive with too few arguments. *)
Theorem C40_evaluator : forall fuel t u, traverse_left fuel t [] = Val u ->
  reds t u /\ whnf u.
Proof. exact (fun fuel t u => traverse_ok fuel t [] u). Qed.
Print Assumptions C40_evaluator.

(* Y (K c) has an endless reduction, and evaluates to c. *)
Example C40_ex : traverse_left 20 (App (Prm P_Y) (App (Prm P_K) (Cst 5))) [] = Val (Cst 5).
Proof. vm_compute. reflexivity. Qed.
Example C40_ex_s :
  traverse_left 30 (App (App (App (Prm P_S) (Prm P_K)) (Prm P_Y)) (Cst 4)) [] = Val (Cst 4).
Proof. vm_compute. reflexivity. Qed.
