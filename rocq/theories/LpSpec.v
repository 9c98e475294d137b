(* What a system of linear constraints means, independently of lp.c. *)
From Coq Require Import ZArith QArith Qcanon List Bool String.
Import ListNotations.
Open Scope Qc_scope.

(* A constraint is a list of coefficients, a relation and a right hand side, as fl gives it to LP. *)
Definition constraint : Type := list Z * (string * Z).
Definition coeffs (r : constraint) : list Z := fst r.
Definition rel (r : constraint) : string := fst (snd r).
Definition rhs (r : constraint) : Z := snd (snd r).

Definition inj (z : Z) : Qc := Q2Qc (inject_Z z).

(* the product of two vectors *)
Fixpoint dot (c x : list Qc) : Qc :=
  match c, x with a :: c', v :: x' => a * v + dot c' x' | _, _ => 0 end.

Definition holds_rel (s : string) (a b : Qc) : Prop :=
  (s = "="%string /\ a = b) \/ (s = "<"%string /\ a < b) \/ (s = "<="%string /\ a <= b) \/
  (s = ">"%string /\ b < a) \/ (s = ">="%string /\ b <= a) \/ (s = "<>"%string /\ a <> b).

Definition satisfies (x : list Qc) (r : constraint) : Prop := holds_rel (rel r) (dot (map inj (coeffs r)) x) (inj (rhs r)).

(* x is a solution, in the rational numbers, of the constraints l on n variables *)
Definition solution (n : nat) (l : list constraint) (x : list Qc) : Prop := List.length x = n /\ Forall (satisfies x) l.

Definition of_width (n : nat) (l : list constraint) : Prop := Forall (fun r => List.length (coeffs r) = n) l.

(* the relations that may be used *)
Definition plain_rel (s : string) : Prop := In s ["="; "<"; "<="; ">"; ">="]%string.
(* a row of zeros *)
Definition zero_row (r : constraint) : Prop := rhs r = 0%Z /\ Forall (fun c => c = 0%Z) (coeffs r).
(* the row c * x[j] >= 0 with positive c *)
Definition nonneg_row (j : nat) (r : constraint) : Prop :=
  rel r = ">="%string /\ rhs r = 0%Z /\ (j < List.length (coeffs r))%nat /\
  forall k, (if Nat.eqb k j then 0 < nth k (coeffs r) 0 else nth k (coeffs r) 0 = 0)%Z.

(* no row is a linear combination of the others *)
Definition lincomb (lam : list Qc) (rows : list (list Qc)) (j : nat) : Qc :=
  fold_right Qcplus 0 (map (fun p => fst p * nth j (snd p) 0) (combine lam rows)).
Definition independent (rows : list (list Qc)) : Prop :=
  forall lam, List.length lam = List.length rows -> (forall j, lincomb lam rows j = 0) -> Forall (fun v => v = 0) lam.

(* the equations among the constraints that are not rows of zeros, with their right hand sides *)
Definition zero_rowb (r : constraint) : bool := forallb (Z.eqb 0) (rhs r :: coeffs r).
Definition equations (l : list constraint) : list (list Qc) :=
  map (fun r => inj (rhs r) :: map inj (coeffs r)) (filter (fun r => String.eqb (rel r) "=" && negb (zero_rowb r)) l).

(* the constraints with < and > replaced by <= and >= *)
Definition relax (r : constraint) : constraint :=
  (coeffs r, (if String.eqb (rel r) "<" then "<=" else if String.eqb (rel r) ">" then ">=" else rel r, rhs r))%string.

(* the number that a pair of numerator and denominator stands for *)
Definition ratio (p : Z * Z) : Qc := inj (fst p) / inj (snd p).
