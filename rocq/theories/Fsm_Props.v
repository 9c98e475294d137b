(* Property theorems: circuit operators (C26, C27, C28, C29). *)
From Coq Require Import List Arith NArith ZArith Bool Lia.
From Verif Require Import FsmOps FsmRel FsmBool FsmWord FsmDelay FsmExact.
Import ListNotations.
Local Open Scope Z_scope.

(* C26: on encoded Boolean vectors a, b of width n. *)
Theorem C26_bits : forall a b n, length a = n -> length b = n ->
  bop OAnd n (encv (a ++ b)) = encv (map (fun p => fst p && snd p) (combine a b)) /\
  bop OOr n (encv (a ++ b)) = encv (map (fun p => fst p || snd p) (combine a b)) /\
  bop ONot n (encv a) = encv (map negb a) /\
  bop OVar n (encv a) = encv a /\ bop OWire n (encv a) = encv a /\
  (forall acc c, bop (OIte acc) n (encv (c :: a ++ b)) = encv (if c then a else b)).
Proof.
  intros a b n La Lb. split; [now apply op_and_enc|]. split; [now apply op_or_enc|].
  split; [now apply op_not_enc|]. split; [now apply op_var_enc|]. split; [now apply op_var_enc|].
  intros acc c. now apply op_ite_enc.
Qed.
Print Assumptions C26_bits.

Theorem C26_compare : forall a b n, length a = n -> length b = n ->
  bop (OEq n) 1 (encv (a ++ b)) = [enc (if list_eq_dec bool_dec a b then true else false)] /\
  bop (OGr n) 1 (encv (a ++ b)) = [enc (uval b <? uval a)].
Proof. intros a b n La Lb. split; [now apply op_eq_enc|now apply op_gr_enc]. Qed.
Print Assumptions C26_compare.

Theorem C26_const : forall v n, exists r,
  bop (OConst v) n [] = encv r /\ length r = n /\ uval r = v mod 2 ^ Z.of_nat n.
Proof. exact op_const_enc. Qed.
Print Assumptions C26_const.

(* The inertial delay: which values the output can take, by the history of the
   input; some value is always possible. *)
Theorem C26_idelay : forall mr Mr mf Mf n l i,
  length l = (n * (1 + Nat.max (Nat.max mr Mr) (Nat.max mf Mf)))%nat -> (i < n)%nat ->
  let h k := nth ((1 + k) * n + i) l false in
  let cur := nth i l false in
  let out := nth i (bop (OIdelay mr Mr mf Mf) n (encv l)) (true, true) in
  (fst out = true <->
     (forall k, (k < mr)%nat -> h k = true) \/ cur = true /\ exists k, (k < Mf)%nat /\ h k = true) /\
  (snd out = true <->
     (forall k, (k < mf)%nat -> h k = false) \/ cur = false /\ exists k, (k < Mr)%nat /\ h k = false) /\
  ((mr <= Mr)%nat -> (mf <= Mf)%nat -> fst out = true \/ snd out = true).
Proof.
  intros mr Mr mf Mf n l i L Li. destruct (op_idelay_enc mr Mr mf Mf n l i L Li) as [A B].
  split; [exact A|]. split; [exact B|]. intros H1 H2.
  destruct (can_be_some mr Mr mf Mf (nth i l false) (fun k => nth ((1 + k) * n + i) l false) H1 H2) as [Q|Q];
    [left; now apply A|right; now apply B].
Qed.
Print Assumptions C26_idelay.

(* All operators, on rails that are Boolean functions: under each assignment they
   act as on constants. *)
Theorem C26_symbolic : forall V cand cor czero cone (den : V -> bool) o n l,
  den czero = false -> den cone = true ->
  (forall a b, den (cand a b) = den a && den b) -> (forall a b, den (cor a b) = den a || den b) ->
  map (fun x => (den (fst x), den (snd x))) (eval_op V cand cor czero cone o n l) =
  bop o n (map (fun x => (den (fst x), den (snd x))) l).
Proof. intros V cand cor czero cone den o n l. exact (eval_den V cand cor czero cone den o n l). Qed.
Print Assumptions C26_symbolic.

Example C26_ex :
  bop OAnd 2 (encv ([true; true] ++ [true; false])) = [(true, false); (false, true)] /\
  bop (OGr 3) 1 (encv ([true; false; true] ++ [false; true; true])) = [(true, false)] /\
  bop (OConst (-3)) 4 [] = encv [true; true; false; true] /\
  bop (OIdelay 1 2 1 2) 1 (encv [false; true; false]) = [(true, true)].
Proof. vm_compute. auto. Qed.

(* C27: [less x y]: x can have every value that y can have. *)
Theorem C27_monotone : forall o n l l',
  Forall2 less l l' -> Forall2 less (bop o n l) (bop o n l').
Proof. exact mono_op. Qed.
Print Assumptions C27_monotone.

(* hence inputs with Xs yield what covers every completion *)
Theorem C27_covers : forall o n l a,
  Forall2 (fun x b => if b : bool then fst x = true else snd x = true) l a ->
  Forall2 less (bop o n l) (bop o n (encv a)).
Proof.
  intros o n l a F. apply mono_op. induction F as [|[h l0] b x y H F IH]; constructor; auto.
  unfold less, enc. destruct b; cbn in *; split; auto; discriminate.
Qed.
Print Assumptions C27_covers.

(* op_LAT_LEQ is not monotone, as its comment says. *)
Theorem C27_lat_leq_refuted : exists l l', Forall2 less l l' /\
  ~ Forall2 less (op_LAT_LEQ bool andb orb true negb 1 l) (op_LAT_LEQ bool andb orb true negb 1 l').
Proof.
  exists [(true, true); (true, false)], [(true, false); (true, false)]. split.
  - constructor; [split; auto|constructor; [split; auto|constructor]].
  - cbn. intros F. inversion F as [|? ? ? ? L _]; subst. destruct L as [L _]. specialize (L eq_refl). discriminate.
Qed.
Print Assumptions C27_lat_leq_refuted.

(* Conversely these operators lose nothing: if every input can have some value, then each
   value that an output bit can have (admit) is the one for some completion of the inputs.
   C_ITE is exact only with RCaccurate_ite_comp. *)
Theorem C27_exact : forall n,
  let ok o w len := forall l i v, length l = len -> Forall (fun r => fst r = true \/ snd r = true) l ->
    (i < length (bop o w l))%nat -> (if v : bool then fst (nth i (bop o w l) (true, true)) else snd (nth i (bop o w l) (true, true))) = true ->
    exists b, Forall2 (fun r x => (if x : bool then fst r else snd r) = true) l b /\
      nth i (bop o w (encv b)) (true, true) = enc v in
  ok OAnd n (n + n)%nat /\ ok OOr n (n + n)%nat /\ ok ONot n n /\ ok (OIte true) n (1 + n + n)%nat /\
  ok (OEq n) 1%nat (n + n)%nat /\ ok (OGr n) 1%nat (n + n)%nat /\ ok OAdd n (n + n)%nat /\ ok OSub n (n + n)%nat.
Proof.
  intros n ok.
  assert (G : forall o w len, exact o w len -> ok o w len).
  { intros o w len E l i v L P Li H. apply (E l i v L P Li). destruct v; exact H. }
  split; [apply G, and_exact|]. split; [apply G, or_exact|]. split; [apply G, not_exact|]. split; [apply G, ite_exact|].
  split; [apply G, op_eq_exact|]. split; [apply G, gr_exact|]. split; [apply G, op_add_exact|apply G, op_sub_exact].
Qed.
Print Assumptions C27_exact.

(* Without RCaccurate_ite_comp, an X as condition loses what both branches agree on. *)
Theorem C27_plain_ite_refuted :
  exists l, snd (nth 0 (bop (OIte false) 1 l) (true, true)) = true /\ length l = 3%nat /\
    forall b, Forall2 (fun r x => (if x : bool then fst r else snd r) = true) l b ->
      nth 0 (bop (OIte false) 1 (encv b)) (true, true) <> enc false.
Proof.
  exists [(true, true); (true, false); (true, false)]. split; [reflexivity|]. split; [reflexivity|].
  intros b F. inversion F as [|? c ? ? _ F1]; subst. inversion F1 as [|? x ? ? X F2]; subst.
  inversion F2 as [|? y ? ? Y F3]; subst. inversion F3; subst. destruct x, y; try discriminate. destruct c; discriminate.
Qed.
Print Assumptions C27_plain_ite_refuted.

Example C27_exact_ex : (* {X,1} + {0,X}: the low bit can be 0 or 1 *)
  bop OAdd 2 [(true, true); (true, false); (false, true); (true, true)] = [(true, true); (true, true)] /\
  bop (OEq 2) 1 [(true, true); (true, false); (false, true); (false, true)] = [(false, true)].
Proof. vm_compute. auto. Qed.

Example C27_ex :
  Forall2 less [(true, true); (true, false)] [(false, true); (true, false)] /\
  bop OAnd 1 [(true, true); (true, false)] = [(true, true)] /\
  bop OAnd 1 [(false, true); (true, false)] = [(false, true)].
Proof.
  split; [|vm_compute; auto]. constructor; [split; auto|constructor; [split; auto|constructor]].
Qed.

(* C28: vectors of width n, most significant bit first. *)
Theorem C28_add_sub : forall a b n, length a = n -> length b = n ->
  (exists r, bop OAdd n (encv (a ++ b)) = encv r /\ length r = n /\
     uval r = (uval a + uval b) mod 2 ^ Z.of_nat n) /\
  (exists r, bop OSub n (encv (a ++ b)) = encv r /\ length r = n /\
     uval r = (uval a - uval b) mod 2 ^ Z.of_nat n).
Proof. intros a b n La Lb. split; [now apply op_add_enc|now apply op_sub_enc]. Qed.
Print Assumptions C28_add_sub.

Theorem C28_mul : forall a b n, length a = n -> length b = n ->
  exists r, bop OMul n (encv (a ++ b)) = encv r /\ length r = n /\
    uval r = (uval a * uval b) mod 2 ^ Z.of_nat n.
Proof. exact op_mul_enc. Qed.
Print Assumptions C28_mul.

(* unsigned division; by zero: all ones, and the dividend *)
Theorem C28_div_mod : forall a b n, length a = n -> length b = n ->
  exists q r, bop ODiv n (encv (a ++ b)) = encv q /\ bop OMod n (encv (a ++ b)) = encv r /\
    length q = n /\ length r = n /\
    (uval b = 0 -> uval q = 2 ^ Z.of_nat n - 1 /\ uval r = uval a) /\
    (uval b <> 0 -> uval q = uval a / uval b /\ uval r = uval a mod uval b).
Proof. exact op_div_enc. Qed.
Print Assumptions C28_div_mod.

(* Shifts, up to width 32 (31 for the right shifts, see below). *)
Theorem C28_shifts : forall a b n, length a = n -> length b = n ->
  ((n <= 32)%nat -> exists r, bop OShl n (encv (a ++ b)) = encv r /\ length r = n /\
     uval r = (uval a * 2 ^ uval b) mod 2 ^ Z.of_nat n) /\
  ((n <= 31)%nat -> exists r, bop OShr n (encv (a ++ b)) = encv r /\ length r = n /\
     uval r = uval a / 2 ^ uval b) /\
  ((n <= 31)%nat -> exists r, bop OAshr n (encv (a ++ b)) = encv r /\ length r = n /\
     sval r = sval a / 2 ^ uval b) /\
  shr_overflows 31 = false.
Proof.
  intros a b n La Lb.
  assert (M : (n <= 32)%nat -> uval b mod 4294967296 = uval b).
  { intros L. apply Z.mod_small. pose proof (uval_range b) as R. rewrite Lb in R.
    assert (two n <= 2 ^ 32) by (apply Z.pow_le_mono_r; lia). lia. }
  split; [|split; [|split; [|vm_compute; reflexivity]]]; intros L.
  - rewrite <- (M L). apply op_shl_enc; auto. lia.
  - rewrite <- (M ltac:(lia)). apply op_shr_enc; auto. lia.
  - rewrite <- (M ltac:(lia)). apply op_ashr_enc; auto. lia.
Qed.
Print Assumptions C28_shifts.

(* Wider: only the low 32 bits of the shift amount count (integers wrapping). *)
Theorem C28_shifts_wide : forall a b n, length a = n -> length b = n -> Z.of_nat n <= 2147483648 ->
  (exists r, bop OShl n (encv (a ++ b)) = encv r /\ length r = n /\
     uval r = (uval a * 2 ^ (uval b mod 2 ^ 32)) mod 2 ^ Z.of_nat n) /\
  (exists r, bop OShr n (encv (a ++ b)) = encv r /\ length r = n /\
     uval r = uval a / 2 ^ (uval b mod 2 ^ 32)) /\
  (exists r, bop OAshr n (encv (a ++ b)) = encv r /\ length r = n /\
     sval r = sval a / 2 ^ (uval b mod 2 ^ 32)).
Proof.
  intros a b n La Lb Ln. split; [now apply op_shl_enc|]. split; [now apply op_shr_enc|now apply op_ashr_enc].
Qed.
Print Assumptions C28_shifts_wide.

(* At width 33 a shift by 2^32 leaves the vector as it is. *)
Theorem C28_shift_refuted : exists a b n r, length a = n /\ length b = n /\
  bop OShl n (encv (a ++ b)) = encv r /\ uval r <> (uval a * 2 ^ uval b) mod 2 ^ Z.of_nat n.
Proof.
  exists (repeat false 32 ++ [true]), (true :: repeat false 32), 33%nat, (repeat false 32 ++ [true]).
  split; [reflexivity|]. split; [reflexivity|]. split; [vm_compute; reflexivity|].
  assert (E : uval (true :: repeat false 32) = 33 + (2 ^ 32 - 33)) by (vm_compute; reflexivity).
  rewrite E. rewrite Z.pow_add_r by (vm_compute; discriminate).
  assert (U : uval (repeat false 32 ++ [true]) = 1) by (vm_compute; reflexivity).
  rewrite U. rewrite Z.mul_1_l, (Z.mul_comm (2 ^ 33)). change (Z.of_nat 33) with 33. rewrite Z.mod_mul by discriminate.
  discriminate.
Qed.
Print Assumptions C28_shift_refuted.
(* From width 32 on, the loops of the right shifts overflow an int. *)
Theorem C28_shr_refuted : shr_overflows 32 = true.
Proof. vm_compute. reflexivity. Qed.
Print Assumptions C28_shr_refuted.

Theorem C28_extend : forall a isz n, length a = isz ->
  (exists r, bop (OZx isz) n (encv a) = encv r /\ length r = n /\
     uval r = if (n <=? isz)%nat then uval a mod 2 ^ Z.of_nat n else uval a) /\
  ((0 < isz)%nat -> exists r, bop (OSx isz) n (encv a) = encv r /\ length r = n /\
     if (n <=? isz)%nat then uval r = uval a mod 2 ^ Z.of_nat n else sval r = sval a).
Proof. intros a isz n La. split; [now apply op_zx_enc|]. intros P. now apply op_sx_enc. Qed.
Print Assumptions C28_extend.

Theorem C28_slice : forall a b il n,
  (length il = n -> Forall (fun i => (i < length a)%nat) il ->
     bop (OSlice il) n (encv a) = encv (map (fun i => nth i a false) il)) /\
  (length a = n -> length b = length il -> Forall (fun i => (i < n)%nat) il ->
     bop (OUpdate il) n (encv (a ++ b)) =
     encv (tab n (fun j => match last_at j il 0 with Some k => nth k b false | None => nth j a false end))).
Proof. intros a b il n. split; [apply op_slice_enc|apply op_update_enc]. Qed.
Print Assumptions C28_slice.

(* A memory is the vector of its lines, the last line first; [line_of] is line k. *)
Theorem C28_memory : forall addr data mem asz dsz lines n,
  length addr = asz -> length data = dsz -> length mem = (lines * dsz)%nat ->
  Z.of_nat lines <= 2 ^ Z.of_nat asz ->
  bop (OMemRead asz dsz lines) dsz (encv (addr ++ mem)) =
    (if uval addr <? Z.of_nat lines then encv (line_of dsz lines (Z.to_nat (uval addr)) mem)
     else repeat (true, true) dsz) /\
  exists r, bop (OMemWrite asz dsz lines) n (encv (addr ++ data ++ mem)) = encv r /\
    length r = (lines * dsz)%nat /\
    forall k, (k < lines)%nat -> line_of dsz lines k r =
      if Z.of_nat k =? uval addr then data else line_of dsz lines k mem.
Proof.
  intros addr data mem asz dsz lines n La Ld Lm Ll.
  split; [now apply op_read_enc|now apply op_write_enc].
Qed.
Print Assumptions C28_memory.

Example C28_ex :
  bop OMul 3 (encv ([true; false; true] ++ [false; true; true])) = encv [true; true; true] /\
  bop ODiv 4 (encv ([true; true; false; true] ++ [false; true; false; false])) = encv [false; false; true; true] /\
  bop OMod 4 (encv ([true; true; false; true] ++ [false; true; false; false])) = encv [false; false; false; true] /\
  bop OAshr 4 (encv ([true; false; false; false] ++ [false; false; true; false])) = encv [true; true; true; false] /\
  bop (OMemRead 2 1 3) 1 (encv ([true; false] ++ [true; false; false])) = encv [true] /\
  bop (OMemWrite 2 1 3) 3 (encv ([false; true] ++ [true] ++ [false; false; false])) = encv [false; true; false].
Proof. vm_compute. auto 10. Qed.

(* C29: results of c_AND and c_OR that are too big, by any measure, become 1. *)
Theorem C29_weakening : forall (V A : Type) cand cor (czero cone : V) (den : V -> A -> bool)
  (big : V -> bool) o n l,
  (forall x y a, den (cand x y) a = den x a && den y a) ->
  (forall x y a, den (cor x y) a = den x a || den y a) ->
  (forall a, den cone a = true) ->
  Forall2 (fun w x => forall a, less (den (fst w) a, den (snd w) a) (den (fst x) a, den (snd x) a))
    (eval_op V (limited big cone cand) (limited big cone cor) czero cone o n l)
    (eval_op V cand cor czero cone o n l).
Proof.
  intros V A cand cor czero cone den big o n l Da Do D1.
  assert (F : Forall2 (weaker V A den) l l).
  { induction l; constructor; auto. split; intros a0 Q; exact Q. }
  pose proof (weak_op V A cand cor (limited big cone cand) (limited big cone cor) czero cone den Da Do) as W.
  assert (L : forall f x y, implied V A den (f x y) (limited big cone f x y)).
  { intros f x y a Q. unfold limited. destruct (big (f x y)); auto. }
  specialize (W (L cand) (L cor) o n l l F). clear -W. induction W as [|w x ws xs [P Q] W IH]; constructor; auto.
  intros a. split; cbn; auto.
Qed.
Print Assumptions C29_weakening.

(* The same for cuts at any of the intermediate results, also when the choice
   depends on more than the value. *)
Theorem C29_any_cut : forall (V A : Type) cand cor wand wor (czero cone : V) (den : V -> A -> bool) o n l l',
  (forall x y a, den (cand x y) a = den x a && den y a) ->
  (forall x y a, den (cor x y) a = den x a || den y a) ->
  (forall x y a, den (cand x y) a = true -> den (wand x y) a = true) ->
  (forall x y a, den (cor x y) a = true -> den (wor x y) a = true) ->
  Forall2 (weaker V A den) l' l ->
  Forall2 (weaker V A den) (eval_op V wand wor czero cone o n l') (eval_op V cand cor czero cone o n l).
Proof.
  intros V A cand cor wand wor czero cone den o n l l' Da Do Wa Wo F.
  now apply (weak_op V A cand cor wand wor czero cone den Da Do).
Qed.
Print Assumptions C29_any_cut.

(* Rails over two variables; conjunctions that depend on both are cut. *)
Example C29_ex :
  let x (a : bool * bool) := fst a in let y (a : bool * bool) := snd a in
  let cand f g a := andb (f a) (g a) in let cor f g a := orb (f a) (g a) in
  let big (f : bool * bool -> bool) :=
    xorb (f (true, true)) (f (true, false)) && xorb (f (true, true)) (f (false, true)) in
  let one (_ : bool * bool) := true in let zero (_ : bool * bool) := false in
  let inp := [(x, fun a => negb (x a)); (y, fun a => negb (y a))] in
  map (fun r => (fst r (true, false), snd r (true, false)))
    (eval_op _ cand cor zero one OAnd 1 inp) = [(false, true)] /\
  map (fun r => (fst r (true, false), snd r (true, false)))
    (eval_op _ (limited big one cand) (limited big one cor) zero one OAnd 1 inp) = [(true, true)].
Proof. vm_compute. auto. Qed.
