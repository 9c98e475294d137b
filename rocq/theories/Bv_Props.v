(** Properties C15-C20: symbolic bit vectors (bv.c).

    [reached s rs], [den s f E]: as in Bdd_Props.v.  A vector is a non-empty
    list of held formulas, most significant bit first: [vec rs l].
    [bvval s E l] (BvThms.v, with [sv] of BvBits.v) is its two's complement
    value under the assignment [E], [bvuval] its value as an unsigned number.
    [after s rs s' rs']: state [s'] is reachable with [rs'] held, [rs'] has all of
    [rs], and these have kept their meaning.  [minimal r]: no redundant sign bit. *)
From stdpp Require Import gmap strings list.
From Coq Require Import NArith ZArith Lia.
From Verif Require Import BddModel BddWf BddRelprod BddDen BddHist BddThms ArbModel ArbBase ArbStr BvModel BvBits BvTri BvArith BvDiv BvConv BvThms.
Open Scope Z_scope.

(** ** C15 *)
Theorem C15_add s rs l1 l2 : reached s rs -> vec rs l1 -> vec rs l2 ->
  exists r s' rs', bv_add l1 l2 s = Some (r, s') /\ after s rs s' rs' /\ vec rs' r /\ minimal r /\
    forall E, bvval s' E r = bvval s E l1 + bvval s E l2.
Proof. exact (thm_add s rs l1 l2). Qed.
Print Assumptions C15_add.
Theorem C15_sub s rs l1 l2 : reached s rs -> vec rs l1 -> vec rs l2 ->
  exists r s' rs', bv_sub l1 l2 s = Some (r, s') /\ after s rs s' rs' /\ vec rs' r /\ minimal r /\
    forall E, bvval s' E r = bvval s E l1 - bvval s E l2.
Proof. exact (thm_sub s rs l1 l2). Qed.
Print Assumptions C15_sub.
Theorem C15_neg s rs l : reached s rs -> vec rs l ->
  exists r s' rs', negate_bv_list l s = Some (r, s') /\ after s rs s' rs' /\ vec rs' r /\ minimal r /\
    forall E, bvval s' E r = - bvval s E l.
Proof. exact (thm_neg s rs l). Qed.
Print Assumptions C15_neg.

(** ** C16 *)
Theorem C16_mul s rs l1 l2 : reached s rs -> vec rs l1 -> vec rs l2 ->
  exists r s' rs', bv_mul l1 l2 s = Some (r, s') /\ after s rs s' rs' /\ vec rs' r /\ minimal r /\
    forall E, bvval s' E r = bvval s E l1 * bvval s E l2.
Proof. exact (thm_mul s rs l1 l2). Qed.
Print Assumptions C16_mul.

(** ** C17 *)
Theorem C17_less s rs l1 l2 : reached s rs -> vec rs l1 -> vec rs l2 ->
  exists c s' rs', bv_less l1 l2 s = Some (c, s') /\ after s rs s' rs' /\ c ∈ rs' /\ forall E, den s' c E = (bvval s E l1 <? bvval s E l2).
Proof. exact (thm_lt s rs l1 l2). Qed.
Print Assumptions C17_less.
Theorem C17_leq s rs l1 l2 : reached s rs -> vec rs l1 -> vec rs l2 ->
  exists c s' rs', bv_leq l1 l2 s = Some (c, s') /\ after s rs s' rs' /\ c ∈ rs' /\ forall E, den s' c E = (bvval s E l1 <=? bvval s E l2).
Proof. exact (thm_le s rs l1 l2). Qed.
Print Assumptions C17_leq.
Theorem C17_greater s rs l1 l2 : reached s rs -> vec rs l1 -> vec rs l2 ->
  exists c s' rs', bv_greater l1 l2 s = Some (c, s') /\ after s rs s' rs' /\ c ∈ rs' /\ forall E, den s' c E = (bvval s E l2 <? bvval s E l1).
Proof. exact (thm_gt s rs l1 l2). Qed.
Print Assumptions C17_greater.
Theorem C17_geq s rs l1 l2 : reached s rs -> vec rs l1 -> vec rs l2 ->
  exists c s' rs', bv_geq l1 l2 s = Some (c, s') /\ after s rs s' rs' /\ c ∈ rs' /\ forall E, den s' c E = (bvval s E l2 <=? bvval s E l1).
Proof. exact (thm_ge s rs l1 l2). Qed.
Print Assumptions C17_geq.
Theorem C17_eq s rs l1 l2 : reached s rs -> vec rs l1 -> vec rs l2 ->
  exists c s' rs', bv_eq l1 l2 s = Some (c, s') /\ after s rs s' rs' /\ c ∈ rs' /\ forall E, den s' c E = (bvval s E l1 =? bvval s E l2).
Proof. exact (thm_eq s rs l1 l2). Qed.
Print Assumptions C17_eq.
(** '==' on vectors: the same value everywhere *)
Theorem C17_identical s rs l1 l2 : reached s rs -> vec rs l1 -> vec rs l2 ->
  exists c, bv_identical l1 l2 = Some c /\ (c = ONE <-> forall E, bvval s E l1 = bvval s E l2) /\ (c = ONE \/ c = ZERO).
Proof. exact (thm_identical s rs l1 l2). Qed.
Print Assumptions C17_identical.

(** ** C18: [Z.div] and [Z.modulo] are the floor division of C13 *)
Theorem C18_div s rs l1 l2 : reached s rs -> vec rs l1 -> vec rs l2 ->
  exists r s' rs', bv_div l1 l2 s = Some (r, s') /\ after s rs s' rs' /\ vec rs' r /\ minimal r /\
    forall E, bvval s E l2 <> 0 -> bvval s' E r = bvval s E l1 / bvval s E l2.
Proof. exact (thm_div s rs l1 l2). Qed.
Print Assumptions C18_div.
Theorem C18_mod s rs l1 l2 : reached s rs -> vec rs l1 -> vec rs l2 ->
  exists r s' rs', bv_mod l1 l2 s = Some (r, s') /\ after s rs s' rs' /\ vec rs' r /\ minimal r /\
    forall E, bvval s E l2 <> 0 -> bvval s' E r = bvval s E l1 mod bvval s E l2.
Proof. exact (thm_mod s rs l1 l2). Qed.
Print Assumptions C18_mod.

(** ** C19: [canon x], [val x] (ArbBase.v): a trimmed big integer and its value *)
Theorem C19_int2bv x : canon x -> exists n l, (forall fuel, Aint2bv (n + fuel) x = Some l) /\ minimal l /\ l <> [] /\
  Forall (fun f => f = ZERO \/ f = ONE) l /\ forall s E, bvval s E l = val x.
Proof. exact (Aint2bv_spec x). Qed.
Print Assumptions C19_int2bv.
(** The bound is that of the 16 bit length field of the integers (C12). *)
Theorem C19_bv2int_partial s rs l : reached s rs -> vec rs l -> Z.of_nat (length l) <= 1999990 ->
  exists r s' rs', bv2int l s = Some (r, s') /\ after s rs s' rs' /\
    match r with Some n => canon n /\ forall E, bvval s E l = val n | None => forall c, ~ forall E, bvval s E l = c end.
Proof. exact (thm_bv2int s rs l). Qed.
Print Assumptions C19_bv2int_partial.

(** ** C20 *)
Theorem C20_and s rs l1 l2 : reached s rs -> vec rs l1 -> vec rs l2 ->
  exists r s' rs', bv_AND l1 l2 s = Some (r, s') /\ after s rs s' rs' /\ vec rs' r /\ minimal r /\
    forall E, bvval s' E r = Z.land (bvval s E l1) (bvval s E l2).
Proof. exact (thm_land s rs l1 l2). Qed.
Print Assumptions C20_and.
Theorem C20_or s rs l1 l2 : reached s rs -> vec rs l1 -> vec rs l2 ->
  exists r s' rs', bv_OR l1 l2 s = Some (r, s') /\ after s rs s' rs' /\ vec rs' r /\ minimal r /\
    forall E, bvval s' E r = Z.lor (bvval s E l1) (bvval s E l2).
Proof. exact (thm_lor s rs l1 l2). Qed.
Print Assumptions C20_or.
Theorem C20_xor s rs l1 l2 : reached s rs -> vec rs l1 -> vec rs l2 ->
  exists r s' rs', bv_XOR l1 l2 s = Some (r, s') /\ after s rs s' rs' /\ vec rs' r /\ minimal r /\
    forall E, bvval s' E r = Z.lxor (bvval s E l1) (bvval s E l2).
Proof. exact (thm_lxor s rs l1 l2). Qed.
Print Assumptions C20_xor.
Theorem C20_xnor s rs l1 l2 : reached s rs -> vec rs l1 -> vec rs l2 ->
  exists r s' rs', bv_XNOR l1 l2 s = Some (r, s') /\ after s rs s' rs' /\ vec rs' r /\ minimal r /\
    forall E, bvval s' E r = Z.lnot (Z.lxor (bvval s E l1) (bvval s E l2)).
Proof. exact (thm_lxnor s rs l1 l2). Qed.
Print Assumptions C20_xnor.
Theorem C20_not s rs l : reached s rs -> vec rs l ->
  exists r s' rs', bv_NOT l s = Some (r, s') /\ after s rs s' rs' /\ vec rs' r /\ minimal r /\
    forall E, bvval s' E r = Z.lnot (bvval s E l).
Proof. exact (thm_lnot s rs l). Qed.
Print Assumptions C20_not.
Theorem C20_abs s rs l : reached s rs -> vec rs l ->
  exists r s' rs', abs_bv_list l s = Some (r, s') /\ after s rs s' rs' /\ vec rs' r /\ minimal r /\
    forall E, bvval s' E r = Z.abs (bvval s E l).
Proof. exact (thm_abs s rs l). Qed.
Print Assumptions C20_abs.
Theorem C20_ite s rs c l1 l2 : reached s rs -> c ∈ rs -> vec rs l1 -> vec rs l2 ->
  exists r s' rs', ite_bv_list c l1 l2 s = Some (r, s') /\ after s rs s' rs' /\ vec rs' r /\ minimal r /\
    forall E, bvval s' E r = if den s c E then bvval s E l1 else bvval s E l2.
Proof. exact (thm_bvite s rs c l1 l2). Qed.
Print Assumptions C20_ite.
Theorem C20_ashr s rs l cnt : reached s rs -> vec rs l -> 0 <= cnt ->
  exists r s' rs', bv_ashr l cnt s = Some (Some r, s') /\ after s rs s' rs' /\ vec rs' r /\ (minimal l -> minimal r) /\
    forall E, bvval s' E r = bvval s E l / 2 ^ cnt.
Proof. exact (thm_ashr s rs l cnt). Qed.
Print Assumptions C20_ashr.
Theorem C20_shl s rs l n : reached s rs -> vec rs l ->
  shift_left l n ⊆ rs ++ [ZERO] /\ forall E, bvval s E (shift_left l n) = bvval s E l * 2 ^ Z.of_nat n.
Proof. exact (thm_shl s rs l n). Qed.
Print Assumptions C20_shl.
Theorem C20_zero_extend s rs l : reached s rs -> l ⊆ rs ->
  bv_ZX l <> [] /\ bv_ZX l ⊆ rs ++ [ZERO] /\ minimal (bv_ZX l) /\ forall E, bvval s E (bv_ZX l) = bvuval s E l.
Proof. exact (thm_ZX s rs l). Qed.
Print Assumptions C20_zero_extend.

(** A state with two symbolic vectors, the second a possible divisor 0. *)
Definition demo_bv : list cmd := [CVar "x"; CVar "y"; CVar "z"; COp And 0 1; CGc; CNot 3; COp Xor 2 4]%nat.
Definition demo_state : option (bst * list fml) := session c_tag 4 demo_bv.
Example demo_reached : match demo_state with Some (s, rs) => reached s rs | None => False end.
Proof.
  destruct demo_state as [[s rs]|] eqn:E; [|vm_compute in E; discriminate]. exists c_tag, 4%N, demo_bv. split; [done|]. split; [|split; [|exact E]]; [|right; split; [done|repeat constructor]].
  cbn. repeat match goal with |- _ /\ _ => split | |- True => exact I | |- (_ < _)%nat => lia end.
Qed.
Definition demo_vecs (rs : list fml) : bvec * bvec := (omap (fun i => rs !! i) [0; 3; 2; 1]%nat, omap (fun i => rs !! i) [5; 1; 4]%nat).
Definition demo_env (a b c : bool) : nenv := fun x => if decide (x = "x"%string) then a else if decide (x = "y"%string) then b else if decide (x = "z"%string) then c else false.
Definition demo_values (op : bvec -> bvec -> M bvec) : option (list (Z * Z * Z)) :=
  match demo_state with
  | Some (s, rs) =>
    let (l1, l2) := demo_vecs rs in
    match op l1 l2 s with
    | Some (r, s') => Some (map (fun E => (bvval s E l1, bvval s E l2, bvval s' E r)) [demo_env false false false; demo_env false true true; demo_env true false true; demo_env true true false])
    | None => None
    end
  | None => None
  end.
Example demo_vecs_ok : match demo_state with Some (s, rs) => vec rs (demo_vecs rs).1 /\ vec rs (demo_vecs rs).2 | None => False end.
Proof. vm_compute. split; (split; [|discriminate]); intros f Hf; repeat (apply elem_of_cons in Hf as [->|Hf]; [repeat (first [left; reflexivity|right])|]); by apply elem_of_nil in Hf. Qed.
Example C15_ex : demo_values bv_sub = Some [(0, -3, 3); (3, 3, 0); (-6, 1, -7); (-3, 2, -5)].
Proof. vm_compute. reflexivity. Qed.
Example C16_ex : demo_values bv_mul = Some [(0, -3, 0); (3, 3, 9); (-6, 1, -6); (-3, 2, -6)].
Proof. vm_compute. reflexivity. Qed.
Definition as_vec (m : bvec -> bvec -> M fml) (a b : bvec) : M bvec := let* f := m a b in ret [ZERO; f].
Example C17_ex : demo_values (as_vec bv_leq) = Some [(0, -3, 0); (3, 3, 1); (-6, 1, 1); (-3, 2, 1)] /\
  demo_values (as_vec bv_eq) = Some [(0, -3, 0); (3, 3, 1); (-6, 1, 0); (-3, 2, 0)].
Proof. split; vm_compute; reflexivity. Qed.
Example C18_ex : demo_values bv_div = Some [(0, -3, 0); (3, 3, 1); (-6, 1, -6); (-3, 2, -2)] /\
  demo_values bv_mod = Some [(0, -3, 0); (3, 3, 0); (-6, 1, 0); (-3, 2, 1)].
Proof. split; vm_compute; reflexivity. Qed.
Example C19_ex : Aint2bv 99 [-5] = Some [ONE; ZERO; ONE; ONE] /\ canon [-5] /\
  match demo_state with
  | Some (s, rs) => match bv2int [ONE; ZERO; ONE; ONE] s, bv2int rs s with Some (Some n, _), Some (None, _) => n = [-5] | _, _ => False end
  | None => False
  end.
Proof. split; [vm_compute; reflexivity|]. split; [apply canonb_ok|]; vm_compute; reflexivity. Qed.
Example C20_ex : demo_values bv_XNOR = Some [(0, -3, 2); (3, 3, -1); (-6, 1, 4); (-3, 2, 0)] /\
  demo_values (fun a b => let* r := bv_ashr a 2 in liftO r) = Some [(0, -3, 0); (3, 3, 0); (-6, 1, -2); (-3, 2, -1)] /\
  demo_values (fun a b => let* f := hdM a in ite_bv_list f a b) = Some [(0, -3, -3); (3, 3, 3); (-6, 1, -6); (-3, 2, -3)].
Proof. split; [|split]; vm_compute; reflexivity. Qed.
