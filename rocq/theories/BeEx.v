(** A complete solver for small problems, and example states. *)
From stdpp Require Import gmap strings list.
From Coq Require Import NArith ZArith Lia.
From Verif Require Import BddModel BddWf BddDen BddRelprod BddHist BddThms BeModel BeSem BeThms.
Open Scope Z_scope.

Fixpoint tables (n : nat) : list (Z -> bool) :=
  match n with
  | O => [fun _ => false]
  | S k => flat_map (fun A => [A; fun i => if i =? Z.of_nat n then true else A i]) (tables k)
  end.
Lemma tables_all n A : exists B, B ∈ tables n /\ forall i, 1 <= i <= Z.of_nat n -> B i = A i.
Proof.
  induction n as [|n IH]; [exists (fun _ => false); split; [by left|lia]|]. destruct IH as (B&HB&H).
  assert (Hz : forall n A k, A ∈ tables n -> Z.of_nat n < k -> A k = false).
  { clear. induction n as [|n IH]; intros A k HA Hk.
    - apply elem_of_list_In in HA. cbn in HA. by destruct HA as [<-|[]].
    - apply elem_of_list_In in HA. cbn [tables] in HA. apply in_flat_map in HA as (C&HC&HA). apply elem_of_list_In in HC.
      cbn [In] in HA. destruct HA as [<-|[<-|[]]]; [apply (IH C); [done|lia]|]. destruct (Z.eqb_spec k (Z.of_nat (S n))); [lia|]. apply (IH C); [done|lia]. }
  exists (if A (Z.of_nat (S n)) then fun i => if i =? Z.of_nat (S n) then true else B i else B). split.
  - apply elem_of_list_In. cbn [tables]. apply in_flat_map. exists B. split; [by apply elem_of_list_In|]. cbn [In]. destruct (A (Z.of_nat (S n))); tauto.
  - intros i Hi. destruct (Z.eq_dec i (Z.of_nat (S n))) as [->|Hne].
    + destruct (A (Z.of_nat (S n))) eqn:E; [by rewrite Z.eqb_refl|]. apply (Hz n); [done|lia].
    + destruct (A (Z.of_nat (S n))); [destruct (Z.eqb_spec i (Z.of_nat (S n))); [lia|]|]; apply H; lia.
Qed.
Definition in_range (n : nat) (l : Z) : bool := negb (l =? 0) && (Z.abs l <=? Z.of_nat n).
Definition brute (n : nat) (t : nat) (cs : list (list Z)) (as_ : list Z) : bool :=
  forallb (forallb (in_range n)) cs && forallb (in_range n) as_ &&
  forallb (fun A => negb (forallb (existsb (lit_true A)) cs && forallb (lit_true A) as_)) (tables n).
Lemma brute_sound n t cs as_ A : brute n t cs as_ = true -> sat_all A cs -> exists l, l ∈ as_ /\ lit_true A l = false.
Proof.
  unfold brute. intros [[H1 H2]%andb_prop H3]%andb_prop HA. rewrite forallb_forall in H1, H2, H3.
  destruct (tables_all n A) as (B&HB&Hag). apply elem_of_list_In in HB. specialize (H3 B HB).
  assert (L : forall l, in_range n l = true -> lit_true B l = lit_true A l).
  { intros l [Hl1 Hl2]%andb_prop. apply negb_true_iff, Z.eqb_neq in Hl1. apply Z.leb_le in Hl2. unfold lit_true.
    destruct (Z.ltb_spec l 0); [f_equal|]; apply Hag; lia. }
  assert (HB' : forallb (existsb (lit_true B)) cs = true).
  { apply forallb_forall. intros k Hk. destruct (HA k) as (l&Hl&Tl); [by apply elem_of_list_In|]. apply existsb_exists. exists l.
    apply elem_of_list_In in Hl. split; [done|]. rewrite L; [done|]. specialize (H1 k Hk). rewrite forallb_forall in H1. by apply H1. }
  rewrite HB' in H3. cbn in H3. apply negb_true_iff in H3.
  assert (Q : forall l, (forall x, In x l -> in_range n x = true) -> forallb (lit_true B) l = false -> exists x, In x l /\ lit_true A x = false).
  { clear -L. induction l as [|x l IH]; intros Hr Hf; [done|]. cbn in Hf. destruct (lit_true B x) eqn:Ex.
    - destruct IH as (y&Hy&Ty); [intros y Hy; apply Hr; by right|done|]. exists y. split; [by right|done].
    - exists x. split; [by left|]. rewrite <- L; [done|]. apply Hr. by left. }
  destruct (Q as_ H2 H3) as (l&Hl&Tl). exists l. split; [by apply elem_of_list_In|done].
Qed.

(** Every node has the same signature, so every node is a candidate. *)
Definition c_all : cfg := mkC (fun _ => 7) (fun _ _ _ _ => 7) 1 (fun _ _ _ => false) true (brute 5).
(** The same signature for TRUE as well. *)
Definition c_bad : cfg := mkC (fun _ => 7) (fun _ _ _ _ => 7) 7 (fun _ _ _ => false) true (brute 5).
Lemma sound_all : sound c_all. Proof. intros t cs as_ H A HA. exact (brute_sound 5 t cs as_ A H HA). Qed.
Lemma sound_bad : sound c_bad. Proof. intros t cs as_ H A HA. exact (brute_sound 5 t cs as_ A H HA). Qed.
Lemma no_clash_all : no_clash c_all. Proof. intros n m s t. cbn. lia. Qed.

(** Run a computation from a made state. *)
Definition result {A} (o : option (A * bx)) (d : A) : A := match o with Some (a, _) => a | None => d end.
Definition after_ {A} (o : option (A * bx)) (x : bx) : bx := match o with Some (_, x') => x' | None => x end.
Definition x1 := after_ (BE_Var c_all "a" (be_init c_all)) (be_init c_all).
Definition x2 := after_ (BE_Var c_all "b" x1) x1.
Definition ra : bref := (false, 1%N).
Definition rb : bref := (false, 2%N).
Lemma made_x2 : made c_all x2 [BTRUE; BFALSE; ra; rb].
Proof.
  apply (made_step c_all x1 [BTRUE; BFALSE; ra]); [apply (made_step c_all (be_init c_all) [BTRUE; BFALSE]); [constructor|]|].
  - apply (st_var c_all (be_init c_all) [BTRUE; BFALSE] "a" ra x1). by vm_compute.
  - apply (st_var c_all x1 [BTRUE; BFALSE; ra] "b" rb x2). by vm_compute.
Qed.
(** a xor b, then the same function from other gates. *)
Definition rx : bref := result (BE_Xor c_all ra rb x2) BTRUE.
Definition x3 := after_ (BE_Xor c_all ra rb x2) x2.
Lemma made_x3 : made c_all x3 [BTRUE; BFALSE; ra; rb; rx].
Proof.
  apply (made_step c_all x2 [BTRUE; BFALSE; ra; rb]); [apply made_x2|].
  apply (st_op c_all x2 [BTRUE; BFALSE; ra; rb] KXor ra rb rx x3); [by do 2 right; left|by do 3 right; left|]. by vm_compute.
Qed.
Definition bad1 := after_ (BE_Var c_bad "a" (be_init c_bad)) (be_init c_bad).
Definition bad2 := after_ (BE_Var c_bad "b" bad1) bad1.
Definition Kall : gset N := {[0%N; 1%N; 2%N]}.
Definition bad3 := BE_Clean Kall bad2.
Lemma made_bad : made c_bad bad3 [ra; rb].
Proof.
  apply (made_step c_bad bad2 [ra; rb]).
  - apply (made_step c_bad bad2 [BTRUE; BFALSE; ra; rb]); [|apply st_drop; intros f Hf; by do 2 right].
    apply (made_step c_bad bad1 [BTRUE; BFALSE; ra]); [apply (made_step c_bad (be_init c_bad) [BTRUE; BFALSE]); [constructor|]|].
    + apply (st_var c_bad (be_init c_bad) [BTRUE; BFALSE] "a" ra bad1). by vm_compute.
    + apply (st_var c_bad bad1 [BTRUE; BFALSE; ra] "b" rb bad2). by vm_compute.
  - apply st_clean.
    + split; [unfold Kall; set_solver|]. intros p r l1 r1 _ Hp Hn. exfalso.
      assert (Hh : b_heap bad2 = <[2%N := mkB (NVar "b") 2 7 None]> (<[1%N := mkB (NVar "a") 1 7 None]> {[0%N := mkB NOne 0 7 None]})) by (by vm_compute).
      rewrite Hh in Hp. apply lookup_insert_Some in Hp as [[<- <-]|[_ Hp]]; [done|].
      apply lookup_insert_Some in Hp as [[<- <-]|[_ Hp]]; [done|]. apply lookup_singleton_Some in Hp as [<- <-]. done.
    + intros f Hf. apply elem_of_list_In in Hf. cbn [In] in Hf. unfold Kall. destruct Hf as [<-|[<-|[]]]; cbn; set_solver.
Qed.
(** Converting a with a := F, then without. *)
Definition cv1 := default (ZERO, x1, B_Init 100) (be2bdd 10 {["a"%string := ZERO]} ra x1 (B_Init 100)).
Definition cv2 := default cv1 (be2bdd 10 ∅ ra cv1.1.2 cv1.2).
