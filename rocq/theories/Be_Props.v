(** Property theorems C21, C22: and-inverter graphs (bexpr.c). *)
From stdpp Require Import gmap strings list.
From Coq Require Import NArith ZArith Lia.
From Verif Require Import BddModel BddWf BddDen BddRelprod BddHist BddThms BeModel BeSem BeThms BeEx.
Open Scope Z_scope.

(** [made c x rs]: a program has reached [x] holding [rs], for the signature
    functions and solver [c]; [val x E f a]: expression [f] has value [a] under
    assignment [E]; [same_val]: all held expressions keep their values. *)
Theorem C21_value c x rs f : sound c -> made c x rs -> f ∈ rs -> forall E, exists a, val x E f a /\ forall b, val x E f b -> b = a.
Proof. exact (thm_has_value c x rs f). Qed.
Print Assumptions C21_value.

Theorem C21_var c x rs v : sound c -> made c x rs ->
  exists r x', BE_Var c v x = Some (r, x') /\ made c x' (rs ++ [r]) /\ same_val x x' rs /\ forall E, val x' E r (E v).
Proof. exact (thm_bvar c x rs v). Qed.
Print Assumptions C21_var.

Theorem C21_not c x rs f : sound c -> made c x rs -> f ∈ rs -> forall E a, val x E f a -> val x E (BE_Not f) (negb a).
Proof. exact (thm_bnot c x rs f). Qed.
Print Assumptions C21_not.

(** And, or, xor, xnor, nand, nor: whatever is returned is right. *)
Theorem C21_op c o x rs f g r x' : sound c -> made c x rs -> f ∈ rs -> g ∈ rs -> bop_fn c o f g x = Some (r, x') ->
  made c x' (rs ++ [r]) /\ same_val x x' rs /\
  forall E a b, val x E f a -> val x E g b -> val x' E r
    (match o with KAnd => a && b | KOr => a || b | KXor => xorb a b | KXnor => eqb a b | KNand => negb (a && b) | KNor => negb (a || b) end).
Proof. exact (thm_bop c o x rs f g r x'). Qed.
Print Assumptions C21_op.

Theorem C21_ite c x rs i t e r x' : sound c -> made c x rs -> i ∈ rs -> t ∈ rs -> e ∈ rs -> BE_Ite c i t e x = Some (r, x') ->
  made c x' (rs ++ [r]) /\ same_val x x' rs /\
  forall E a b d, val x E i a -> val x E t b -> val x E e d -> val x' E r (if a then b else d).
Proof. exact (thm_bite c x rs i t e r x'). Qed.
Print Assumptions C21_ite.

(** They do return, as long as no AND has the signature of TRUE. *)
Theorem C21_total_partial c x rs : sound c -> no_clash c -> made c x rs ->
  (forall o f g, f ∈ rs -> g ∈ rs -> is_Some (bop_fn c o f g x)) /\
  (forall i t e, i ∈ rs -> t ∈ rs -> e ∈ rs -> is_Some (BE_Ite c i t e x)).
Proof. exact (thm_btotal c x rs). Qed.
Print Assumptions C21_total_partial.

(** Otherwise the operation may ask the solver about literal 0. *)
Theorem C21_total_refuted : exists c x rs f g, sound c /\ made c x rs /\ f ∈ rs /\ g ∈ rs /\ BE_And c f g x = None.
Proof.
  exists c_bad, bad3, [ra; rb], ra, rb. split; [exact sound_bad|]. split; [exact made_bad|].
  split; [by left|]. split; [by right; left|]. by vm_compute.
Qed.
Print Assumptions C21_total_refuted.

(** Collection keeps the held expressions and frees exactly the rest. *)
Theorem C21_clean c x rs K : sound c -> made c x rs -> closed K x -> (forall f, f ∈ rs -> f.2 ∈ K) ->
  made c (BE_Clean K x) rs /\ same_val x (BE_Clean K x) rs /\ forall p, ok (BE_Clean K x) p <-> ok x p /\ p ∈ K.
Proof. exact (thm_bclean c x rs K). Qed.
Print Assumptions C21_clean.

(** b AND a is recognised as the existing a AND b although all signatures
    collide, and a XOR b has the value it should. *)
Example C21_ex : exists x r x', made c_all x [BTRUE; BFALSE; ra; rb; r] /\ sound c_all /\ no_clash c_all /\
  BE_And c_all rb ra x = Some (r, x') /\ r <> BTRUE /\ r <> BFALSE.
Proof.
  exists (after_ (BE_And c_all ra rb x2) x2), (result (BE_And c_all ra rb x2) BTRUE). eexists.
  split. { apply (made_step c_all x2 [BTRUE; BFALSE; ra; rb]); [apply made_x2|].
           apply (st_op c_all x2 [BTRUE; BFALSE; ra; rb] KAnd ra rb); [by do 2 right; left|by do 3 right; left|by vm_compute]. }
  split; [exact sound_all|]. split; [exact no_clash_all|]. split; [by vm_compute|]. split; by vm_compute.
Qed.
Example C21_ex_xor : forall E, val x3 E rx (xorb (E "a"%string) (E "b"%string)).
Proof.
  intros E. apply (C21_op c_all KXor x2 [BTRUE; BFALSE; ra; rb] ra rb rx x3); [exact sound_all|exact made_x2|by do 2 right; left|by do 3 right; left|by vm_compute| |].
  - apply (val_pos x2 E 1), (ev_var _ _ _ (mkB (NVar "a") 1 7 None) "a"); by vm_compute.
  - apply (val_pos x2 E 2), (ev_var _ _ _ (mkB (NVar "b") 2 7 None) "b"); by vm_compute.
Qed.

(** ** C22 *)
(** [both c x s rb rs]: a program using both packages, all of whose conversions
    had an empty substitution list.  A further such conversion returns the BDD
    of the same function. *)
Theorem C22_be2bdd_partial c x s rb rs f : sound c -> both c x s rb rs -> f ∈ rb -> exists n0, forall fuel, (n0 <= fuel)%nat ->
  exists g x' s' rs', be2bdd fuel ∅ f x s = Some (g, x', s') /\ both c x' s' rb (rs ++ rs') /\ g ∈ rs ++ rs' /\ kept s s' rs /\ same_val x x' rb /\
    forall E a, val x E f a -> den s' g E = a.
Proof. exact (thm_be2bdd c x s rb rs f). Qed.
Print Assumptions C22_be2bdd_partial.

(** With a substitution list the result is right if no node has a BDD yet... *)
Theorem C22_be2bdd_sub_partial c x s rb rs sub f : sound c -> made c x rb -> reached s rs -> (forall g, ~ cached x g) -> f ∈ rb ->
  (forall v g, sub !! v = Some g -> g ∈ rs) ->
  exists n0, forall fuel, (n0 <= fuel)%nat -> exists g x' s', be2bdd fuel sub f x s = Some (g, x', s') /\ kept s s' rs /\
    forall E E' a, (forall v, E' v = match sub !! v with Some h => den s h E | None => E v end) -> val x E' f a -> den s' g E = a.
Proof. exact (thm_be2bdd_sub c x s rb rs sub f). Qed.
Print Assumptions C22_be2bdd_sub_partial.

(** ... but the BDD is stored in the node, and the next conversion, with an
    empty list, returns it. *)
Theorem C22_refuted : exists c x s rb rs f sub g1 x1 s1 g2 x2 s2,
  sound c /\ made c x rb /\ reached s rs /\ (forall g, ~ cached x g) /\ f ∈ rb /\ (forall v g, sub !! v = Some g -> g ∈ rs) /\
  be2bdd 10 sub f x s = Some (g1, x1, s1) /\ be2bdd 10 ∅ f x1 s1 = Some (g2, x2, s2) /\
  exists E a, val x1 E f a /\ den s2 g2 E <> a.
Proof.
  exists c_all, x1, (B_Init 100), [BTRUE; BFALSE; ra], [ZERO], ra, {["a"%string := ZERO]}.
  exists cv1.1.1, cv1.1.2, cv1.2, cv2.1.1, cv2.1.2, cv2.2. split; [exact sound_all|].
  split. { apply (made_step c_all (be_init c_all) [BTRUE; BFALSE]); [constructor|].
           apply (st_var c_all (be_init c_all) [BTRUE; BFALSE] "a" ra x1). by vm_compute. }
  split. { exists c_tag, 100%N, [CConst false]. split; [done|]. split; [cbn; tauto|]. split; [right; split; [done|]; by repeat constructor|]. done. }
  split. { intros g (p&r&Hp&Hg). assert (Hh : b_heap x1 = <[1%N := mkB (NVar "a") 1 7 None]> {[0%N := mkB NOne 0 1 None]}) by (by vm_compute).
           rewrite Hh in Hp. apply lookup_insert_Some in Hp as [[<- <-]|[_ Hp]]; [done|]. apply lookup_singleton_Some in Hp as [<- <-]. done. }
  split; [by do 2 right; left|]. split. { intros v g [<- <-]%lookup_singleton_Some. by left. }
  split; [by vm_compute|]. split; [by vm_compute|].
  exists (fun _ => true), true. split; [|by vm_compute]. apply (val_pos cv1.1.2 (fun _ => true) 1), (ev_var (b_heap cv1.1.2) (fun _ => true) 1 (mkB (NVar "a") 1 7 (Some ZERO)) "a"); by vm_compute.
Qed.
Print Assumptions C22_refuted.

(** bsubstitute is simultaneous substitution; it fails exactly on duplicates. *)
Theorem C22_subst c fuel x rs sub l l' x' : sound c -> made c x rs -> (forall v g, (v, g) ∈ sub -> g ∈ rs) -> (forall f, f ∈ l -> f ∈ rs) ->
  bsubstitute c fuel sub l x = Some (Some l', x') ->
  made c x' (rs ++ l') /\ same_val x x' rs /\
  Forall2 (fun f r => forall E E', (forall v g, (v, g) ∈ sub -> val x E g (E' v)) -> (forall v, v ∉ sub.*1 -> E' v = E v) ->
    forall a, val x E' f a -> val x' E r a) l l'.
Proof. exact (thm_bsubst c fuel x rs sub l l' x'). Qed.
Print Assumptions C22_subst.

Theorem C22_subst_total c x rs sub l : sound c -> no_clash c -> made c x rs -> (forall v g, (v, g) ∈ sub -> g ∈ rs) -> (forall f, f ∈ l -> f ∈ rs) ->
  exists n0, forall fuel, (n0 <= fuel)%nat -> exists o x', bsubstitute c fuel sub l x = Some (o, x') /\ (o = None <-> ~ NoDup sub.*1).
Proof. exact (thm_bsubst_total c x rs sub l). Qed.
Print Assumptions C22_subst_total.

(** From BDDs. *)
Theorem C22_bdd2bexpr c x s rb rs f : sound c -> made c x rb -> reached s rs -> f ∈ rs -> exists n0, forall fuel, (n0 <= fuel)%nat ->
  (forall r memo x', bdd2bexpr c fuel s f ∅ x = Some ((r, memo), x') -> same_val x x' rb /\ forall E, val x' E r (den s f E)) /\
  (no_clash c -> is_Some (bdd2bexpr c fuel s f ∅ x)).
Proof. exact (thm_bdd2be c x s rb rs f). Qed.
Print Assumptions C22_bdd2bexpr.

(** Exchanging a and b in (a xor b): the list has two entries and the result is
    not simply the argument of one of them. *)
Example C22_ex : exists l' x', bsubstitute c_all 10 [("a"%string, rb); ("b"%string, ra)] [rx; ra] x3 = Some (Some l', x') /\ l' !! 1%nat = Some rb.
Proof. do 2 eexists. split; [vm_compute; reflexivity|done]. Qed.
Example C22_ex_conv : exists s rs, both c_all x3 s [BTRUE; BFALSE; ra; rb; rx] rs.
Proof.
  exists (B_Init 100), []. apply (both_be c_all x2 _ [BTRUE; BFALSE; ra; rb]).
  - apply (both_be c_all x1 _ [BTRUE; BFALSE; ra]); [apply (both_be c_all (be_init c_all) _ [BTRUE; BFALSE])|].
    + apply both_init. exists c_tag, 100%N, []. split; [done|]. split; [done|]. split; [right; split; [done|constructor]|done].
    + apply (st_var c_all (be_init c_all) [BTRUE; BFALSE] "a" ra x1). by vm_compute.
    + apply (st_var c_all x1 [BTRUE; BFALSE; ra] "b" rb x2). by vm_compute.
  - apply (st_op c_all x2 [BTRUE; BFALSE; ra; rb] KXor ra rb rx x3); [by do 2 right; left|by do 3 right; left|by vm_compute].
Qed.
