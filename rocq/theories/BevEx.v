(** Examples for C64: nodes are the truth tables of two variables, as numbers of four bits. *)
From Coq Require Import List NArith ZArith Lia Bool.
Import ListNotations.
From Verif Require Import BevModel BevSpec.

Definition clip (n : N) : N := N.land n 15.
Definition tt4 : alg := {| node := N; One := 15%N; Zero := 0%N; Not := fun a => N.lxor (clip a) 15; And := N.land; Or := N.lor; Xor := N.lxor;
  Xnor := fun a b => N.lxor (clip (N.lxor a b)) 15; Ite := fun a b c => N.lor (N.land a b) (N.land (N.lxor (clip a) 15) c); same := N.eqb |}.
(** the assignment number [i] *)
Definition at_ (i : N) (n : node tt4) : bool := N.testbit n i.
Lemma t15 i : (i < 4)%N -> N.testbit 15 i = true.
Proof. intros H. assert (C : i = 0%N \/ i = 1%N \/ i = 2%N \/ i = 3%N) by lia. destruct C as [C|[C|[C|C]]]; subst i; reflexivity. Qed.
Lemma tt4_sound i : (i < 4)%N -> sound tt4 (at_ i).
Proof.
  intros H. pose proof (t15 i H) as T. constructor; intros; unfold at_, tt4 in *; cbn [One Zero Not And Or Xor Xnor Ite same node] in *; unfold clip in *.
  - exact T.
  - destruct i; reflexivity.
  - rewrite N.lxor_spec, N.land_spec, T. rewrite andb_true_r. apply xorb_true_r.
  - apply N.land_spec.
  - apply N.lor_spec.
  - apply N.lxor_spec.
  - rewrite N.lxor_spec, N.land_spec, N.lxor_spec, T, andb_true_r, xorb_true_r. destruct (N.testbit a i), (N.testbit b i); reflexivity.
  - rewrite N.lor_spec, !N.land_spec, N.lxor_spec, N.land_spec, T, andb_true_r, xorb_true_r. destruct (N.testbit a i), (N.testbit b i), (N.testbit c i); reflexivity.
  - apply N.eqb_eq in H0. congruence.
Qed.
Lemma tt4_folding : folding tt4.
Proof.
  constructor; cbn; intros; repeat match goal with H : konst _ |- _ => destruct H; subst end; try (left; reflexivity); try (right; reflexivity).
  apply N.eqb_eq.
Qed.
(** the variables x and y, and two vectors *)
Definition x : node tt4 := 10%N.
Definition y : node tt4 := 12%N.
Definition va : list (node tt4) := [x; y; One; Zero].
Definition vb : list (node tt4) := [y; Not x; x].
Definition values (o : option (list (node tt4))) : option (list Z) :=
  match o with Some r => Some (map (fun i => num (at_ i) r) [0; 1; 2; 3]%N) | None => None end.
