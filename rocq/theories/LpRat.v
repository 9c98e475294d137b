(* Rational numbers of lp.c, src/bin/fl/lp.c 1544-1744.  A Rational is a pair of arbitrary
   precision integers.  Here the integers are those of Z: that Arbi_add, Arbi_mlt, Arbi_div,
   Arbi_cmp and so on compute the operations of Z is the subject of C11 to C13 (with the two words
   on which they trap).  Allocation and release of the pairs are left out. *)
From Coq Require Import Lia ZArith QArith Qcanon.
Open Scope Z_scope.

Record rational := Rat { rn : Z; rd : Z }.

(* cmpzero, 1585-1595. *)
Definition cmpzero (x : Z) : Z := Z.sgn x.

(* rat_return, 1614-1649.  None: rat_error, which prints a message and ends the program. *)
Definition rat_return (n d : Z) : option rational :=
  if d =? 0 then None
  else
    let an := Z.abs n in let ad := Z.abs d in
    let g := Z.gcd an ad in
    let q := an / g in
    Some (Rat (if cmpzero n =? cmpzero d then q else - q) (ad / g)).

Definition arbi2rat (i : Z) : rational := Rat i 1.                       (* 1604-1612 *)
Definition rat_copy (x : rational) := rat_return (rn x) (rd x).          (* 1651-1655 *)
Definition rat_neg (x : rational) := rat_return (- rn x) (rd x).         (* 1657-1667 *)
(* rat_cmp, 1669-1683, with Eq, Lt, Gt for EQ, LT, GT *)
Definition rat_cmp (x y : rational) : comparison := rn x * rd y ?= rn y * rd x.
Definition rat_add (a b : rational) :=                                   (* 1685-1702 *)
  rat_return (rd a * rn b + rd b * rn a) (rd a * rd b).
Definition rat_sub (a b : rational) :=                                   (* 1704-1713 *)
  match rat_neg b with Some n => rat_add a n | None => None end.
Definition rat_mlt (a b : rational) := rat_return (rn a * rn b) (rd a * rd b). (* 1715-1727 *)
Definition rat_inverse (x : rational) := rat_return (rd x) (rn x).       (* 1729-1733 *)
Definition rat_div (x y : rational) :=                                   (* 1735-1744 *)
  match rat_inverse y with Some i => rat_mlt x i | None => None end.

(* The pair that stands for a rational number: lowest terms, positive denominator. *)
Definition repr (q : Qc) : rational := Rat (Qnum q) (Zpos (Qden q)).

Lemma Zgcd_pos_r a p : 0 < Z.gcd a (Zpos p).
Proof.
  pose proof (Z.gcd_nonneg a (Zpos p)).
  destruct (Z.eq_dec (Z.gcd a (Zpos p)) 0) as [E|E]; [|apply Z.le_neq; split; [exact H|congruence]].
  apply Z.gcd_eq_0_r in E. discriminate.
Qed.

Lemma repr_inj p q : repr p = repr q -> p = q.
Proof.
  intros E. apply Qc_is_canon. unfold Qeq. injection E. intros A B. rewrite A, B. reflexivity.
Qed.

(* What rat_return computes, for any pair standing for the number q. *)
Lemma return_ok n d (q : Qc) : d <> 0 -> n * Zpos (Qden q) = Qnum q * d -> rat_return n d = Some (repr q).
Proof.
  intros Hd E. unfold rat_return. rewrite (proj2 (Z.eqb_neq d 0) Hd). f_equal.
  destruct q as [[a b] C]. unfold repr. cbn [this Qnum Qden] in *.
  assert (G : Z.gcd a (Zpos b) = 1).
  { apply Qred_iff in C. exact C. }
  set (g := Z.gcd (Z.abs n) (Z.abs d)).
  assert (Hg : 0 < g).
  { subst g. pose proof (Z.gcd_nonneg (Z.abs n) (Z.abs d)).
    assert (Z.gcd (Z.abs n) (Z.abs d) <> 0); [|apply Z.le_neq; split; [exact H|congruence]].
    intros X. apply Z.gcd_eq_0_r in X. apply Hd, Z.abs_0_iff, X. }
  (* d = k * b and n = k * a *)
  assert (D : (Zpos b | d)).
  { apply (Z.gauss (Zpos b) a d); [|rewrite Z.gcd_comm; exact G]. exists n. rewrite <- E. reflexivity. }
  destruct D as [k D]. assert (N : n = k * a).
  { apply (Z.mul_cancel_r _ _ (Zpos b)); [discriminate|]. rewrite E, D. ring. }
  assert (K : k <> 0) by (intros ->; apply Hd; rewrite D; reflexivity).
  assert (GG : g = Z.abs k).
  { subst g. rewrite Z.gcd_abs_l, Z.gcd_abs_r, D, N.
    rewrite (Z.mul_comm k a), (Z.mul_comm k (Zpos b)), Z.gcd_mul_mono_r, G. apply Z.mul_1_l. }
  assert (AD : Z.abs d / g = Zpos b).
  { rewrite GG, D, Z.abs_mul, Z.mul_comm, Z.div_mul; [reflexivity|]. intros X. apply K, Z.abs_0_iff, X. }
  assert (AN : Z.abs n / g = Z.abs a).
  { rewrite GG, N, Z.abs_mul, Z.mul_comm, Z.div_mul; [reflexivity|]. intros X. apply K, Z.abs_0_iff, X. }
  rewrite AD, AN. f_equal.
  unfold cmpzero. rewrite N, D, !Z.sgn_mul. cbn [Z.sgn].
  destruct k as [|k|k]; [contradiction| |]; cbn [Z.sgn]; destruct a; reflexivity.
Qed.

Lemma repr_norm q : 0 < rd (repr q) /\ Z.gcd (rn (repr q)) (rd (repr q)) = 1.
Proof. destruct q as [[a b] C]. split; [reflexivity|]. exact (proj1 (Qred_iff (a # b)) C). Qed.

Lemma repr_surj r : 0 < rd r -> Z.gcd (rn r) (rd r) = 1 -> exists q, repr q = r.
Proof.
  destruct r as [n [|d|d]]; cbn; try discriminate. intros _ G.
  assert (C : Qred (n # d) = (n # d)) by (apply Qred_iff; exact G).
  exists (Qcmake (n # d) C). reflexivity.
Qed.

Lemma Q2Qc_val n d : n * Zpos (Qden (Q2Qc (n # d))) = Qnum (Q2Qc (n # d)) * Zpos d.
Proof.
  pose proof (Qred_correct (n # d)) as E. unfold Qeq in E. cbn [Q2Qc this Qnum Qden] in *. symmetry. exact E.
Qed.

Lemma value_ok n d (q : Q) : q == (n # d) -> rat_return n (Zpos d) = Some (repr (Q2Qc q)).
Proof.
  intros E. replace (Q2Qc q) with (Q2Qc (n # d)) by (apply Qc_is_canon; cbn [Q2Qc this]; rewrite !Qred_correct; symmetry; exact E).
  apply return_ok; [discriminate|]. apply Q2Qc_val.
Qed.

Lemma arbi2rat_ok i : arbi2rat i = repr (Q2Qc (inject_Z i)).
Proof.
  unfold arbi2rat, repr. assert (C : Qred (inject_Z i) = inject_Z i).
  { apply Qred_iff. cbn. apply Z.gcd_1_r. }
  cbn [Q2Qc this]. rewrite C. reflexivity.
Qed.

Lemma copy_ok q : rat_copy (repr q) = Some (repr q).
Proof. apply return_ok; [discriminate|reflexivity]. Qed.

Lemma neg_ok q : rat_neg (repr q) = Some (repr (- q)%Qc).
Proof. destruct q as [[a b] C]. apply value_ok. reflexivity. Qed.

Lemma add_ok p q : rat_add (repr p) (repr q) = Some (repr (p + q)%Qc).
Proof.
  destruct p as [[a b] C], q as [[a' b'] C']. unfold rat_add. cbn [repr rn rd this Qnum Qden].
  rewrite <- Pos2Z.inj_mul. apply value_ok. unfold Qeq, Qplus. cbn [this Qnum Qden]. ring.
Qed.

Lemma sub_ok p q : rat_sub (repr p) (repr q) = Some (repr (p - q)%Qc).
Proof. unfold rat_sub. rewrite neg_ok. apply add_ok. Qed.

Lemma mlt_ok p q : rat_mlt (repr p) (repr q) = Some (repr (p * q)%Qc).
Proof.
  destruct p as [[a b] C], q as [[a' b'] C']. unfold rat_mlt. cbn [repr rn rd this Qnum Qden].
  rewrite <- Pos2Z.inj_mul. apply value_ok. unfold Qeq, Qmult. cbn [this Qnum Qden]. ring.
Qed.

Lemma inverse_ok q : q <> 0%Qc -> rat_inverse (repr q) = Some (repr (/ q)%Qc).
Proof.
  destruct q as [[a b] C]. intros N. unfold rat_inverse. cbn [repr rn rd this Qnum Qden].
  apply return_ok.
  - intros ->. apply N. apply Qc_is_canon. reflexivity.
  - cbn [Qcinv Q2Qc this].
    assert (E := Qred_correct (/ (a # b))). unfold Qeq in E.
    destruct a as [|a|a]; cbn [Qinv Qnum Qden] in *.
    + exfalso. apply N. apply Qc_is_canon. reflexivity.
    + symmetry. exact E.
    + set (n := Qnum (Qred (Z.neg b # a))) in *. set (d := Qden (Qred (Z.neg b # a))) in *.
      apply Z.opp_inj. transitivity (Z.neg b * Zpos d); [reflexivity|]. rewrite <- E.
      rewrite <- Z.mul_opp_r. reflexivity.
Qed.

Lemma inverse_zero : rat_inverse (repr 0%Qc) = None.
Proof. reflexivity. Qed.

Lemma div_ok p q : rat_div (repr p) (repr q) = if Qc_eq_dec q 0%Qc then None else Some (repr (p / q)%Qc).
Proof.
  unfold rat_div. destruct (Qc_eq_dec q 0%Qc) as [->|N]; [reflexivity|].
  rewrite (inverse_ok q N). apply mlt_ok.
Qed.

Lemma cmp_ok p q : rat_cmp (repr p) (repr q) = (p ?= q)%Qc.
Proof. reflexivity. Qed.

Lemma return_value n d :
  (d = 0 -> rat_return n d = None) /\
  (d <> 0 -> exists q : Qc, rat_return n d = Some (repr q) /\ (q * Q2Qc (inject_Z d) = Q2Qc (inject_Z n))%Qc).
Proof.
  split; [intros ->; reflexivity|]. intros N.
  exists (Q2Qc (inject_Z n) / Q2Qc (inject_Z d))%Qc.
  assert (ND : Q2Qc (inject_Z d) <> 0%Qc).
  { intros E. apply (f_equal this) in E. assert (X : Qred (inject_Z d) == 0) by (change (Qred (inject_Z d) = Qred 0) in E; rewrite E; reflexivity).
    rewrite Qred_correct in X. unfold Qeq, inject_Z in X. cbn in X. lia. }
  set (q := (Q2Qc (inject_Z n) / Q2Qc (inject_Z d))%Qc).
  assert (E : (q * Q2Qc (inject_Z d) = Q2Qc (inject_Z n))%Qc) by (unfold q; field; exact ND).
  split; [|exact E]. apply return_ok; [exact N|].
  apply (f_equal this) in E. change (Qred (this q * Qred (inject_Z d)) = Qred (inject_Z n)) in E.
  assert (X : this q * inject_Z d == inject_Z n).
  { rewrite <- (Qred_correct (inject_Z n)), <- E, Qred_correct, Qred_correct. reflexivity. }
  destruct q as [[a b] C]. cbn [this Qnum Qden]. unfold Qeq, Qmult, inject_Z in X. cbn [this Qnum Qden] in X. lia.
Qed.
