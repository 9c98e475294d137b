(* Property theorems: rational arithmetic and linear constraints (C46, C47, C48). *)
From Coq Require Import ZArith QArith Qcanon List Bool String.
From Verif Require Import LpRat LpModel LpBase LpSpec LpThms LpCycle.
Import ListNotations.

(* C46: the pairs that rat_return makes are exactly one for each rational number: lowest terms and a
   positive denominator. *)
Theorem C46_normal : forall r : rational,
  (0 < rd r /\ Z.gcd (rn r) (rd r) = 1)%Z <-> exists q : Qc, r = Rat (Qnum q) (Zpos (Qden q)).
Proof.
  intros r. split; [intros [P G]; destruct (repr_surj r P G) as [q E]; exists q; symmetry; exact E|].
  intros [q ->]. exact (repr_norm q).
Qed.
Print Assumptions C46_normal.

(* C46: on such pairs the operations are those of the rational numbers; division by 0 is an error. *)
Theorem C46_operations : forall p q : Qc,
  let rep (x : Qc) := Rat (Qnum x) (Zpos (Qden x)) in
  rat_add (rep p) (rep q) = Some (rep (p + q)%Qc)
  /\ rat_sub (rep p) (rep q) = Some (rep (p - q)%Qc)
  /\ rat_mlt (rep p) (rep q) = Some (rep (p * q)%Qc)
  /\ rat_neg (rep p) = Some (rep (- p)%Qc)
  /\ rat_copy (rep p) = Some (rep p)
  /\ (q <> 0%Qc -> rat_inverse (rep q) = Some (rep (/ q)%Qc) /\ rat_div (rep p) (rep q) = Some (rep (p / q)%Qc))
  /\ (q = 0%Qc -> rat_inverse (rep q) = None /\ rat_div (rep p) (rep q) = None)
  /\ rat_cmp (rep p) (rep q) = (p ?= q)%Qc.
Proof.
  intros p q rep. split; [exact (add_ok p q)|]. split; [exact (sub_ok p q)|]. split; [exact (mlt_ok p q)|].
  split; [exact (neg_ok p)|]. split; [exact (copy_ok p)|]. pose proof (div_ok p q) as D. change repr with rep in D. split; [|split].
  - intros N. split; [exact (inverse_ok q N)|]. destruct (Qc_eq_dec q 0%Qc); [contradiction|exact D].
  - intros ->. split; [exact inverse_zero|]. destruct (Qc_eq_dec 0%Qc 0%Qc); [exact D|contradiction].
  - exact (cmp_ok p q).
Qed.
Print Assumptions C46_operations.

(* C46: whatever the numerator and the (nonzero) denominator, the pair made is that of the quotient. *)
Theorem C46_return : forall n d : Z,
  (d = 0%Z -> rat_return n d = None) /\
  (d <> 0%Z -> exists q : Qc, rat_return n d = Some (Rat (Qnum q) (Zpos (Qden q))) /\ (q * Q2Qc (inject_Z d) = Q2Qc (inject_Z n))%Qc).
Proof. exact return_value. Qed.
Print Assumptions C46_return.

Example C46_ex : rat_add (Rat 1 6) (Rat (-2) 3) = Some (Rat (-1) 2) /\ rat_div (Rat 1 2) (Rat (-3) 4) = Some (Rat (-2) 3)
  /\ rat_return 6 (-4) = Some (Rat (-3) 2).
Proof. repeat split. Qed.

(* C47: whenever LP answers, it says T exactly if the constraints have a solution in the rational
   numbers.  Partial: no row with "<>", and no equation that depends on the others.  Both are
   needed, and so is "whenever LP answers": see the refutations below. *)
Theorem C47_decides_partial : forall n l fuel b,
  of_width n l -> Forall (fun r => plain_rel (rel r)) l -> independent (equations l) ->
  LP fuel l = Ok (Some b) -> (b = true <-> exists x, solution n l x).
Proof. exact (fun n l fuel b W P I => LP_decides n l W P I fuel b). Qed.
Print Assumptions C47_decides_partial.

(* C47: and it does not stop the program or step outside of what C defines, unless every row that is
   not zero just says x[j] >= 0.  More: the given number of pivots was not enough. *)
Theorem C47_runs_partial : forall n l fuel,
  of_width n l -> Forall (fun r => plain_rel (rel r)) l -> independent (equations l) -> l <> [] ->
  (n = 0 \/ Forall zero_row l \/ exists r, In r l /\ ~ zero_row r /\ forall j, ~ nonneg_row j r) ->
  LP fuel l = More \/ exists b, LP fuel l = Ok (Some b).
Proof. exact (fun n l fuel W P I => LP_total n l W P I fuel). Qed.
Print Assumptions C47_runs_partial.

(* x + y = 2, x - y < 1, x >= 0, y > 1 has a solution; with y < 0 for the last it has none *)
Example C47_ex : exists l l',
  of_width 2 l /\ Forall (fun r => plain_rel (rel r)) l /\ independent (equations l) /\ LP 20 l = Ok (Some true) /\
  of_width 2 l' /\ Forall (fun r => plain_rel (rel r)) l' /\ independent (equations l') /\ LP 20 l' = Ok (Some false).
Proof. exact decides_example. Qed.

(* C47: if every row that is not zero says x[j] >= 0 then the program stops with a message, although
   all zeros is a solution. *)
Theorem C47_nonneg_refuted : forall n fuel l,
  1 <= n -> of_width n l ->
  Forall (fun r => (exists j, nonneg_row j r) \/ (zero_row r /\ In (rel r) ["="; "<="; ">="]%string)) l ->
  (exists r j, In r l /\ nonneg_row j r) -> LP fuel l = Die.
Proof. exact LP_stops. Qed.
Print Assumptions C47_nonneg_refuted.
Example C47_nonneg_ex : LP 9 [([1%Z], (">="%string, 0%Z))] = Die /\ solution 1 [([1%Z], (">="%string, 0%Z))] [Q2Qc 0].
Proof. split; [vm_compute; reflexivity|apply solution_test; vm_compute; reflexivity]. Qed.

(* C47: with dependent equations the program may stop, *)
Theorem C47_dependent_stops_refuted : exists l, of_width 1 l /\ Forall (fun r => plain_rel (rel r)) l /\
  (exists x, solution 1 l x) /\ (forall fuel, 9 <= fuel -> LP fuel l = Die).
Proof. exact dependent_stops. Qed.
Print Assumptions C47_dependent_stops_refuted.

(* or say T for constraints without a solution. *)
Theorem C47_dependent_wrong_refuted : exists l, of_width 1 l /\ Forall (fun r => plain_rel (rel r)) l /\
  ~ (exists x, solution 1 l x) /\ exists fuel, LP fuel l = Ok (Some true).
Proof. exact dependent_wrong. Qed.
Print Assumptions C47_dependent_wrong_refuted.

(* C47: with "<>" the answer may be wrong either way. *)
Theorem C47_ne_refuted : exists l l',
  of_width 1 l /\ of_width 1 l' /\ equations l = [] /\ equations l' = [] /\
  (~ exists x, solution 1 l x) /\ (exists fuel, LP fuel l = Ok (Some true)) /\
  (exists x, solution 1 l' x) /\ (exists fuel, LP fuel l' = Ok (Some false)).
Proof. exact ne_wrong. Qed.
Print Assumptions C47_ne_refuted.

(* C47: the simplex loop may come back to a tableau, so that LP never answers. *)
Theorem C47_cycle_refuted : exists l, of_width 7 l /\ Forall (fun r => plain_rel (rel r)) l /\ independent (equations l) /\
  (exists x, solution 7 l x) /\ forall fuel, LP fuel l = More.
Proof. exact cycle_example. Qed.
Print Assumptions C47_cycle_refuted.

(* C48: LPsol gives [] exactly if there is no solution; else as many pairs as there are variables,
   in lowest terms with positive denominators. *)
Theorem C48_shape_partial : forall n l fuel ps,
  1 <= n -> of_width n l -> Forall (fun r => plain_rel (rel r)) l -> independent (equations l) ->
  LPsol fuel l = Ok (Some ps) ->
  (ps = [] <-> ~ exists x, solution n l x) /\ (ps <> [] -> List.length ps = n) /\
  Forall (fun p => 0 < snd p /\ Z.gcd (fst p) (snd p) = 1)%Z ps.
Proof.
  intros n l fuel ps N W P I H. destruct (LPsol_spec n l W P I fuel ps N H) as (A & B & C & _). exact (conj A (conj B C)).
Qed.
Print Assumptions C48_shape_partial.

(* C48: if for every variable there is a row x[j] >= 0, they are a solution of the constraints with
   < and > read as <= and >=. *)
Theorem C48_solution_partial : forall n l fuel ps,
  1 <= n -> of_width n l -> Forall (fun r => plain_rel (rel r)) l -> independent (equations l) ->
  (forall j, j < n -> exists r, In r l /\ nonneg_row j r) ->
  LPsol fuel l = Ok (Some ps) -> ps <> [] -> solution n (map relax l) (map ratio ps).
Proof.
  intros n l fuel ps N W P I ALL H NE. destruct (LPsol_spec n l W P I fuel ps N H) as (_ & _ & _ & D). exact (D NE ALL).
Qed.
Print Assumptions C48_solution_partial.

(* x + y = 2, x >= 0, y >= 0, 3 x <= 2 *)
Example C48_ex : exists l ps, of_width 2 l /\ Forall (fun r => plain_rel (rel r)) l /\ independent (equations l) /\
  (forall j, j < 2 -> exists r, In r l /\ nonneg_row j r) /\ LPsol 20 l = Ok (Some ps) /\ ps = [(2, 3); (4, 3)]%Z.
Proof. exact solution_example. Qed.

(* C48: a variable that may be negative comes out with the wrong sign, *)
Theorem C48_negative_refuted : exists l ps fuel, of_width 1 l /\ Forall (fun r => plain_rel (rel r)) l /\ independent (equations l) /\
  LPsol fuel l = Ok (Some ps) /\ ps <> [] /\ ~ solution 1 (map relax l) (map ratio ps).
Proof. exact negative_wrong. Qed.
Print Assumptions C48_negative_refuted.

(* and strict inequalities may hold with equality. *)
Theorem C48_strict_refuted : exists l ps fuel, of_width 1 l /\ Forall (fun r => plain_rel (rel r)) l /\ independent (equations l) /\
  (forall j, j < 1 -> exists r, In r l /\ nonneg_row j r) /\
  LPsol fuel l = Ok (Some ps) /\ ps <> [] /\ ~ solution 1 l (map ratio ps).
Proof. exact strict_wrong. Qed.
Print Assumptions C48_strict_refuted.
