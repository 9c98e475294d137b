(** The theorems about bv.c, over every reachable BDD manager state. *)
From stdpp Require Import gmap strings list.
From Coq Require Import NArith ZArith Lia.
From Verif Require Import BddModel BddWf BddOps BddRelprod BddDen BddHist BddThms ArbModel ArbBase BvModel BvBits BvTri BvArith BvDiv BvConv.
Open Scope Z_scope.

(** The two's complement value of a vector (most significant bit first) under
    an assignment. *)
Definition bvval (s : bst) (E : nenv) (l : bvec) : Z := sv (bits s E l).
(** The bits as an unsigned number. *)
Definition bvuval (s : bst) (E : nenv) (l : bvec) : Z := uv (bits s E l).
(** What a call does to the manager: the state is reachable with more formulas
    held, and the ones held before have their old meaning. *)
Definition after (s : bst) (rs : list fml) (s' : bst) (rs' : list fml) : Prop := reached s' rs' /\ rs ⊆ rs' /\ kept s s' rs.
Definition vec (rs l : list fml) : Prop := l ⊆ rs /\ l <> [].

Lemma run_tri {A} (m : M A) s rs (Q : A -> bst -> list fml -> Prop) : reached s rs ->
  (forall rs1, st s rs1 -> rs ⊆ rs1 -> tri m s rs1 Q) -> exists a s' rs', m s = Some (a, s') /\ after s rs s' rs' /\ Q a s' rs'.
Proof.
  intros R H. destruct (st_start s rs R) as (rs1&S1&I1). destruct (H rs1 S1 I1) as (a&s'&rs'&E&(S'&I'&K)&HQ). exists a, s', rs'. split_and!; [done| |done].
  split_and!; [apply S'|set_solver|]. intros f Hf. apply K. set_solver. Qed.
Lemma vec_hasz s rs rs1 l : vec rs l -> rs ⊆ rs1 -> hasz s rs1 l (fun E => bvval s E l).
Proof. intros [H N] I. split_and!; [done|set_solver|done]. Qed.
Lemma hasz_vec s rs l V : hasz s rs l V -> vec rs l /\ forall E, bvval s E l = V E.
Proof. intros (N&H&D). split; [split; done|done]. Qed.

(** a binary operation with integer meaning [f] *)
Lemma thm_bin (op : bvec -> bvec -> M bvec) (f : Z -> Z -> Z) :
  (forall l1 l2 s rs V1 V2, st s rs -> hasz s rs l1 V1 -> hasz s rs l2 V2 ->
    tri (op l1 l2) s rs (fun r s' rs' => minimal r /\ hasz s' rs' r (fun E => f (V1 E) (V2 E)))) ->
  forall s rs l1 l2, reached s rs -> vec rs l1 -> vec rs l2 ->
  exists r s' rs', op l1 l2 s = Some (r, s') /\ after s rs s' rs' /\ vec rs' r /\ minimal r /\ forall E, bvval s' E r = f (bvval s E l1) (bvval s E l2).
Proof.
  intros Hop s rs l1 l2 R H1 H2. destruct (run_tri (op l1 l2) s rs _ R (fun rs1 S1 I1 => Hop l1 l2 s rs1 _ _ S1 (vec_hasz _ _ _ _ H1 I1) (vec_hasz _ _ _ _ H2 I1)))
    as (r&s'&rs'&E&Ha&Hm&Hz). apply hasz_vec in Hz as [Hv HV]. exists r, s', rs'. split_and!; done. Qed.
Lemma thm_un (op : bvec -> M bvec) (f : Z -> Z) :
  (forall l s rs V, st s rs -> hasz s rs l V -> tri (op l) s rs (fun r s' rs' => minimal r /\ hasz s' rs' r (fun E => f (V E)))) ->
  forall s rs l, reached s rs -> vec rs l ->
  exists r s' rs', op l s = Some (r, s') /\ after s rs s' rs' /\ vec rs' r /\ minimal r /\ forall E, bvval s' E r = f (bvval s E l).
Proof.
  intros Hop s rs l R H1. destruct (run_tri (op l) s rs _ R (fun rs1 S1 I1 => Hop l s rs1 _ S1 (vec_hasz _ _ _ _ H1 I1)))
    as (r&s'&rs'&E&Ha&Hm&Hz). apply hasz_vec in Hz as [Hv HV]. exists r, s', rs'. split_and!; done. Qed.
(** a relation *)
Lemma thm_rel (op : bvec -> bvec -> M fml) (f : Z -> Z -> bool) :
  (forall l1 l2 s rs V1 V2, st s rs -> hasz s rs l1 V1 -> hasz s rs l2 V2 ->
    tri (op l1 l2) s rs (fun c s' rs' => has s' rs' c (fun E => f (V1 E) (V2 E)))) ->
  forall s rs l1 l2, reached s rs -> vec rs l1 -> vec rs l2 ->
  exists c s' rs', op l1 l2 s = Some (c, s') /\ after s rs s' rs' /\ c ∈ rs' /\ forall E, den s' c E = f (bvval s E l1) (bvval s E l2).
Proof.
  intros Hop s rs l1 l2 R H1 H2. destruct (run_tri (op l1 l2) s rs _ R (fun rs1 S1 I1 => Hop l1 l2 s rs1 _ _ S1 (vec_hasz _ _ _ _ H1 I1) (vec_hasz _ _ _ _ H2 I1)))
    as (r&s'&rs'&E&Ha&Hm&Hz). exists r, s', rs'. split_and!; done. Qed.
Lemma thm_partial (op : bvec -> bvec -> M bvec) (f : Z -> Z -> Z) :
  (forall l1 l2 s rs V1 V2, st s rs -> hasz s rs l1 V1 -> hasz s rs l2 V2 ->
    tri (op l1 l2) s rs (fun r s' rs' => exists V, minimal r /\ hasz s' rs' r V /\ forall E, V2 E <> 0 -> V E = f (V1 E) (V2 E))) ->
  forall s rs l1 l2, reached s rs -> vec rs l1 -> vec rs l2 ->
  exists r s' rs', op l1 l2 s = Some (r, s') /\ after s rs s' rs' /\ vec rs' r /\ minimal r /\
    forall E, bvval s E l2 <> 0 -> bvval s' E r = f (bvval s E l1) (bvval s E l2).
Proof.
  intros Hop s rs l1 l2 R H1 H2. destruct (run_tri (op l1 l2) s rs _ R (fun rs1 S1 I1 => Hop l1 l2 s rs1 _ _ S1 (vec_hasz _ _ _ _ H1 I1) (vec_hasz _ _ _ _ H2 I1)))
    as (r&s'&rs'&E&Ha&V&Hm&Hz&HV). apply hasz_vec in Hz as [Hv HV']. exists r, s', rs'. split_and!; try done. intros E0 HE. rewrite HV'. by apply HV. Qed.

Definition thm_add := thm_bin bv_add Z.add h_bv_add.
Definition thm_sub := thm_bin bv_sub Z.sub h_bv_sub.
Definition thm_neg := thm_un negate_bv_list Z.opp h_negate.
Definition thm_abs := thm_un abs_bv_list Z.abs h_abs.
Definition thm_mul := thm_bin bv_mul Z.mul h_bv_mul.
Definition thm_land := thm_bin bv_AND Z.land h_AND.
Definition thm_lor := thm_bin bv_OR Z.lor h_OR.
Definition thm_lxor := thm_bin bv_XOR Z.lxor h_XOR.
Definition thm_lxnor := thm_bin bv_XNOR (fun x y => Z.lnot (Z.lxor x y)) h_XNOR.
Definition thm_lnot := thm_un bv_NOT Z.lnot h_NOT.
Definition thm_lt := thm_rel bv_less Z.ltb h_less.
Definition thm_le := thm_rel bv_leq Z.leb h_leq.
Definition thm_gt := thm_rel bv_greater (fun x y => y <? x) h_greater.
Definition thm_ge := thm_rel bv_geq (fun x y => y <=? x) h_geq.
Definition thm_eq := thm_rel bv_eq Z.eqb h_bv_eq.
Definition thm_div := thm_partial bv_div Z.div h_div.
Definition thm_mod := thm_partial bv_mod Z.modulo h_mod.
Lemma thm_identical s rs l1 l2 : reached s rs -> vec rs l1 -> vec rs l2 ->
  exists c, bv_identical l1 l2 = Some c /\ (c = ONE <-> forall E, bvval s E l1 = bvval s E l2) /\ (c = ONE \/ c = ZERO).
Proof.
  intros R H1 H2. destruct (st_start s rs R) as (rs1&S1&I1). apply (identical_spec l1 l2 s rs1 _ _ S1 (vec_hasz _ _ _ _ H1 I1) (vec_hasz _ _ _ _ H2 I1)). Qed.
Lemma thm_bvite s rs c l1 l2 : reached s rs -> c ∈ rs -> vec rs l1 -> vec rs l2 ->
  exists r s' rs', ite_bv_list c l1 l2 s = Some (r, s') /\ after s rs s' rs' /\ vec rs' r /\ minimal r /\
    forall E, bvval s' E r = if den s c E then bvval s E l1 else bvval s E l2.
Proof.
  intros R Hc H1 H2. destruct (run_tri (ite_bv_list c l1 l2) s rs (fun r s' rs' => minimal r /\ hasz s' rs' r (fun E => if den s c E then bvval s E l1 else bvval s E l2)) R) as (r&s'&rs'&E&Ha&Hm&Hz).
  - intros rs1 S1 I1. apply h_ite; [done| |by eapply vec_hasz|by eapply vec_hasz]. split; [set_solver|done].
  - apply hasz_vec in Hz as [Hv HV]. exists r, s', rs'. split_and!; done. Qed.
Lemma thm_ZX s rs l : reached s rs -> l ⊆ rs ->
  bv_ZX l <> [] /\ bv_ZX l ⊆ rs ++ [ZERO] /\ minimal (bv_ZX l) /\ forall E, bvval s E (bv_ZX l) = bvuval s E l.
Proof.
  intros R Hl. destruct (st_start s rs R) as (rs1&S1&I1). destruct (h_ZX l s rs1 (fun E => bits s E l) S1) as [(N&_&D) Hm].
  { split; [set_solver|done]. } split_and!; [done| |done|done]. unfold bv_ZX. apply trim_sub'. apply trim_sub'. set_solver. Qed.
Lemma thm_shl s rs l n : reached s rs -> vec rs l -> shift_left l n ⊆ rs ++ [ZERO] /\ forall E, bvval s E (shift_left l n) = bvval s E l * 2 ^ Z.of_nat n.
Proof.
  intros R Hl. destruct (st_start s rs R) as (rs1&S1&I1). destruct (h_shift_left l n s rs1 _ S1 (vec_hasz _ _ _ _ Hl I1)) as (N&_&D). split; [|done].
  unfold shift_left. destruct Hl as [Hl _]. apply sub_app. split; [set_solver|]. apply sub_rep. set_solver. Qed.
Lemma thm_ashr s rs l cnt : reached s rs -> vec rs l -> 0 <= cnt ->
  exists r s' rs', bv_ashr l cnt s = Some (Some r, s') /\ after s rs s' rs' /\ vec rs' r /\ (minimal l -> minimal r) /\ forall E, bvval s' E r = bvval s E l / 2 ^ cnt.
Proof.
  intros R H1 Hc. destruct (run_tri (bv_ashr l cnt) s rs _ R (fun rs1 S1 I1 => h_ashr l cnt s rs1 _ S1 (vec_hasz _ _ _ _ H1 I1) Hc)) as (o&s'&rs'&E&Ha&r&->&Hz&Hm).
  apply hasz_vec in Hz as [Hv HV]. exists r, s', rs'. split_and!; done. Qed.
Lemma thm_bv2int s rs l : reached s rs -> vec rs l -> Z.of_nat (length l) <= 1999990 ->
  exists r s' rs', bv2int l s = Some (r, s') /\ after s rs s' rs' /\
    match r with Some n => canon n /\ forall E, bvval s E l = val n | None => forall c, ~ forall E, bvval s E l = c end.
Proof.
  intros R H1 Hc. apply (run_tri (bv2int l) s rs _ R (fun rs1 S1 I1 => bv2int_spec l s rs1 _ S1 (vec_hasz _ _ _ _ H1 I1) Hc)). Qed.
