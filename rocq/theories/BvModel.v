(** Model of the symbolic bit vectors: /repo/src/bin/fl/bv.c.

    A bit vector is the list of its BDDs, most significant (sign) bit first,
    as in [bv_rec.u.l].  Taking the head of NIL is [None].  Reference counts,
    the GC protection stacks and the garbage collections requested with
    [Do_gc_asap] are not modelled: the operations run between two collections.
    Where C leaves the order of evaluation of two arguments open one order is
    chosen.  The BDD operations are those of BddModel.v. *)
From stdpp Require Import gmap strings list.
From Coq Require Import NArith ZArith.
From Verif Require Import BddModel BddHist.
From Verif Require ArbModel.
Open Scope N_scope.

Notation "'let**' ( x , y ) := m 'in' k" := (bind m (fun p => match p with (x, y) => k end))
  (at level 200, x name, y name, m at level 100, k at level 200).
Notation bvec := (list fml).
Definition liftO {A} (o : option A) : M A := fun s => match o with Some a => Some (a, s) | None => None end.
Definition hdM (l : bvec) : M fml := liftO (head l).

(** bv.c 71-85 (trim_bv) *)
Fixpoint trim_bv (l : bvec) : bvec :=
  match l with
  | f :: (g :: _) as r => if decide (f = g) then trim_bv r else l
  | _ => l
  end.

(** bv.c 323-345 (sx2), 347-367 (zx2) *)
Definition pad (n : nat) (f : fml) (l : bvec) : bvec := repeat f n ++ l.
Definition sx1 (n : nat) (l : bvec) : option bvec :=
  match (n - length l)%nat, head l with
  | O, _ => Some l
  | k, Some f => Some (pad k f l)
  | _, None => None
  end.
Definition sx2 (l1 l2 : bvec) : M (bvec * bvec) :=
  let* a := liftO (sx1 (length l2) l1) in
  let* b := liftO (sx1 (length l1) l2) in
  ret (a, b).
Definition zx2 (l1 l2 : bvec) : bvec * bvec :=
  (pad (length l2 - length l1) ZERO l1, pad (length l1 - length l2) ZERO l2).

(** bit by bit *)
Fixpoint map2M (op : fml -> fml -> M fml) (l1 l2 : bvec) : M bvec :=
  match l1, l2 with
  | [], _ => ret []
  | a :: l1, b :: l2 => let* c := op a b in let* r := map2M op l1 l2 in ret (c :: r)
  | _ :: _, [] => fun _ => None
  end.

(** bv.c 46-69 (ite_bv_list) *)
Definition ite_bit (cond nb pb : fml) : M fml :=
  let* x := B_And cond nb in
  let* nc := B_Not cond in
  let* y := B_And nc pb in
  B_Or x y.
Definition ite_bv_list (cond : fml) (l1 l2 : bvec) : M bvec :=
  let** (a, b) := sx2 l1 l2 in
  let* r := map2M (ite_bit cond) a b in
  ret (trim_bv r).

(** bv.c 391-433 (add_rec): the sum bits and the carry out. *)
Fixpoint add_rec (neg : bool) (l1 l2 : bvec) : M (bvec * fml) :=
  match l1, l2 with
  | [], [] => ret ([], if neg then ONE else ZERO)
  | a :: l1, b :: l2 =>
    let** (rem, cin) := add_rec neg l1 l2 in
    let* b := (if neg then B_Not b else ret b) in
    let* sum := B_Xor b cin in
    let* sum := B_Xor a sum in
    let* ab := B_And a b in
    let* ac := B_And a cin in
    let* bc := B_And b cin in
    let* s1 := B_Or ac bc in
    let* cout := B_Or ab s1 in
    ret (sum :: rem, cout)
  | _, _ => fun _ => None
  end.
(** bv.c 435-446 (gen_add) *)
Definition gen_add (neg : bool) (l1 l2 : bvec) : M bvec :=
  let* h1 := hdM l1 in
  let* h2 := hdM l2 in
  let** (r, _) := add_rec neg (h1 :: l1) (h2 :: l2) in
  ret (trim_bv r).
(** bv.c 448-457 (is_zero_list) *)
Fixpoint is_zero_loop (zero : fml) (l : bvec) : M fml :=
  match l with
  | [] => ret zero
  | f :: l => let* n := B_Not f in let* z := B_And zero n in is_zero_loop z l
  end.
Definition is_zero_list (l : bvec) : M fml := is_zero_loop ONE l.
(** bv.c 459-471 (negate_bv_list) *)
Definition negate_bv_list (l : bvec) : M bvec :=
  let** (l, zero) := sx2 l [ZERO] in
  let* r := gen_add true zero l in
  ret (trim_bv r).
(** bv.c 473-485 (decrement_bv_list) *)
Definition decrement_bv_list (l : bvec) : M bvec :=
  let** (l, one) := sx2 l [ZERO; ONE] in
  let* r := gen_add true l one in
  ret (trim_bv r).
(** bv.c 487-499 (abs_bv_list) *)
Definition abs_bv_list (l : bvec) : M bvec :=
  let* neg := hdM l in
  let* l_neg := negate_bv_list l in
  ite_bv_list neg l_neg l.
(** bv.c 501-532 (mult_bv_list) *)
Fixpoint mapM1 (op : fml -> M fml) (l : bvec) : M bvec :=
  match l with
  | [] => ret []
  | a :: l => let* c := op a in let* r := mapM1 op l in ret (c :: r)
  end.
Fixpoint mult_bv_list (xv yv : bvec) : M bvec :=
  match yv with
  | [] => ret [ZERO]
  | y :: yv' =>
    let* rem := mult_bv_list xv yv' in
    let* row := mapM1 (B_And y) xv in
    let prod := ZERO :: row ++ repeat ZERO (length yv') in
    let (prod, rem) := zx2 prod rem in
    let* r := gen_add false prod rem in
    ret (trim_bv r)
  end.
(** bv.c 534-557 (less_rec) *)
Fixpoint less_rec (l1 l2 : bvec) : M fml :=
  match l1, l2 with
  | [], [] => ret ZERO
  | a :: l1, b :: l2 =>
    let* rem := less_rec l1 l2 in
    let* ab := B_Xnor a b in
    let* abrem := B_And ab rem in
    let* na := B_Not a in
    let* nab := B_And na b in
    B_Or nab abrem
  | _, _ => fun _ => None
  end.
(** bv.c 559-574 (less_than_bv_list) *)
Definition less_than_bv_list (l1 l2 : bvec) : M fml :=
  let** (l1, l2) := sx2 l1 l2 in
  let* neg1 := hdM l1 in
  let* neg2 := hdM l2 in
  let* raw := less_rec l1 l2 in
  let* x := B_Ite neg2 raw ONE in
  let* y := B_Ite neg2 ZERO raw in
  B_Ite neg1 x y.
(** bv.c 576-587 (is_scalar_list) *)
Definition is_scalar (f : fml) : bool := bool_decide (f = ONE) || bool_decide (f = ZERO).
Definition is_scalar_list (l : bvec) : bool := forallb is_scalar l.
(** bv.c 589-611 (constant_power_of_two); [None] is -1 *)
Fixpoint after_one (l : bvec) : option bvec :=
  match l with
  | [] => None
  | f :: l => if decide (f = ONE) then Some l else after_one l
  end.
Definition constant_power_of_two (l : bvec) : option nat :=
  if is_scalar_list l then
    match after_one l with
    | None => None
    | Some r => if forallb (fun f => negb (bool_decide (f = ONE))) r then Some (length r) else None
    end
  else None.

(** bv.c 657-663: r - b, in [sub_buf]; the carry out is not used. *)
Fixpoint sub_loop (r b : bvec) : M (bvec * fml) :=
  match r, b with
  | [], [] => ret ([], ONE)
  | x :: r, b0 :: b =>
    let** (sub, cin) := sub_loop r b in
    let* y := B_Not b0 in
    let* xy := B_Xor x y in
    let* sum := B_Xor cin xy in
    let* p := B_And x y in
    let* q := B_And x cin in
    let* t := B_And y cin in
    let* u := B_Or q t in
    let* cout := B_Or p u in
    ret (sum :: sub, cout)
  | _, _ => fun _ => None
  end.
(** bv.c 664-670 *)
Fixpoint geq_loop (r b : bvec) : M fml :=
  match r, b with
  | [], [] => ret ONE
  | ri :: r, bi :: b =>
    let* geq := geq_loop r b in
    let* nb := B_Not bi in
    let* x := B_And ri nb in
    let* e := B_Xnor ri bi in
    let* y := B_And e geq in
    B_Or x y
  | _, _ => fun _ => None
  end.
(** bv.c 646-690: the loop over the bits of the dividend. *)
Fixpoint div_bits (av bb q r : bvec) : M (bvec * bvec) :=
  match av with
  | [] => ret (q, r)
  | a :: av =>
    let r := tail r ++ [a] in
    let** (sub, _) := sub_loop r bb in
    let* geq := geq_loop r bb in
    let* r := map2M (B_Ite geq) sub r in
    div_bits av bb (tail q ++ [geq]) r
  end.
(** bv.c 613-708 (fixed_ext_bvdiv) *)
Definition fixed_ext_bvdiv (av bv : bvec) : M (bvec * bvec) :=
  let sz := length av in
  if (sz =? length bv)%nat then
    match constant_power_of_two bv with
    | Some cnt =>
      ret (repeat ZERO cnt ++ firstn (sz - cnt) av, repeat ZERO (sz - cnt) ++ skipn (sz - cnt) av)
    | None => div_bits av bv (repeat ZERO sz) (repeat ZERO sz)
    end
  else fun _ => None.

(** bv.c 860-875 (bv_add), 877-892 (bv_sub).  [get_bv_rec] trims once more. *)
Definition bv_add (l1 l2 : bvec) : M bvec :=
  let** (a, b) := sx2 l1 l2 in let* r := gen_add false a b in ret (trim_bv r).
Definition bv_sub (l1 l2 : bvec) : M bvec :=
  let** (a, b) := sx2 l1 l2 in let* r := gen_add true a b in ret (trim_bv r).
(** bv.c 894-937 (bv_mul) *)
Definition bv_mul (l1 l2 : bvec) : M bvec :=
  let (av, bv) := if (length l1 <? length l2)%nat then (l2, l1) else (l1, l2) in
  let* neg_a := hdM av in
  let* abs_av := abs_bv_list av in
  let* neg_b := hdM bv in
  let* abs_bv := abs_bv_list bv in
  let* prod := mult_bv_list abs_av abs_bv in
  let abs_res := ZERO :: prod in
  let* neg := B_Xor neg_a neg_b in
  let* neg_res := negate_bv_list abs_res in
  let** (abs_res, neg_res) := sx2 abs_res neg_res in
  let* r := ite_bv_list neg neg_res abs_res in
  ret (trim_bv r).
(** bv.c 939-972 (signed_bvdiv) *)
Definition signed_bvdiv (dv nv : bvec) : M (bvec * bvec) :=
  let* neg_d := hdM dv in
  let* neg_n := hdM nv in
  let* abs_dv := abs_bv_list dv in
  let* abs_nv := abs_bv_list nv in
  let (abs_dv, abs_nv) := zx2 abs_dv abs_nv in
  let** (Qraw, Rraw) := fixed_ext_bvdiv abs_dv abs_nv in
  let* exact := is_zero_list Rraw in
  let* same_sign := B_Xnor neg_d neg_n in
  let* nq := negate_bv_list Qraw in
  let* Q0 := ite_bv_list same_sign Qraw nq in
  let* c := B_Or exact same_sign in
  let* dq := decrement_bv_list Q0 in
  let* Q := ite_bv_list c Q0 dq in
  let* rn := gen_add true Rraw abs_nv in
  let* R0 := ite_bv_list same_sign Rraw rn in
  let* nr := negate_bv_list R0 in
  let* R1 := ite_bv_list neg_d nr R0 in
  let* R := ite_bv_list exact Rraw R1 in
  ret (Q, R).
(** bv.c 1008-1042 (bv_div, bv_mod) *)
Definition bv_div (l1 l2 : bvec) : M bvec := let** (q, _) := signed_bvdiv l1 l2 in ret (trim_bv q).
Definition bv_mod (l1 l2 : bvec) : M bvec := let** (_, r) := signed_bvdiv l1 l2 in ret (trim_bv r).

(** bv.c 974-1005 (bv_ashr); a negative count is reported as a failure *)
Definition bv_ashr (l : bvec) (cnt : Z) : M (option bvec) :=
  if (cnt <? 0)%Z then ret None else
  if (cnt =? 0)%Z then ret (Some l) else
  if (Z.of_nat (length l) <=? cnt)%Z then (let* h := hdM l in ret (Some [h]))
  else ret (Some (trim_bv (firstn (length l - Z.to_nat cnt) l))).
(** bv.c 1607-1625 (shift_left) *)
Definition shift_left (l : bvec) (cnt : nat) : bvec := l ++ repeat ZERO cnt.
(** bv.c 1044-1059 (bv_NOT), 1061-1071 (bv_ZX) *)
Definition bv_NOT (l : bvec) : M bvec := let* r := mapM1 B_Not l in ret (trim_bv r).
Definition bv_ZX (l : bvec) : bvec := trim_bv (trim_bv (ZERO :: l)).
(** bv.c 1073-1171 (bv_AND, bv_OR, bv_XOR, bv_XNOR) *)
Definition bv_bitwise (op : fml -> fml -> M fml) (l1 l2 : bvec) : M bvec :=
  let** (a, b) := sx2 l1 l2 in let* r := map2M op a b in ret (trim_bv r).
Definition bv_AND := bv_bitwise B_And.
Definition bv_OR := bv_bitwise B_Or.
Definition bv_XOR := bv_bitwise B_Xor.
Definition bv_XNOR := bv_bitwise B_Xnor.
(** bv.c 1173-1239 (bv_less, bv_leq, bv_greater, bv_geq) *)
Definition bv_less (l1 l2 : bvec) : M fml := less_than_bv_list l1 l2.
Definition bv_leq (l1 l2 : bvec) : M fml := let* f := less_than_bv_list l2 l1 in B_Not f.
Definition bv_greater (l1 l2 : bvec) : M fml := less_than_bv_list l2 l1.
Definition bv_geq (l1 l2 : bvec) : M fml := let* f := less_than_bv_list l1 l2 in B_Not f.
(** bv.c 223-275 (bv_eq_fn) *)
Fixpoint eq_loop (result : fml) (l1 l2 : bvec) : M fml :=
  match l1, l2 with
  | [], [] => ret result
  | a :: l1, b :: l2 => let* e := B_Xnor a b in let* r := B_And result e in eq_loop r l1 l2
  | _, _ => fun _ => None
  end.
Definition bv_eq (l1 l2 : bvec) : M fml :=
  let (l1, l2) := if (length l2 <? length l1)%nat then (l2, l1) else (l1, l2) in
  let* b1 := hdM l1 in
  eq_loop ONE (pad (length l2 - length l1) b1 l1) l2.
Definition bv_identical (l1 l2 : bvec) : option fml :=
  let (l1, l2) := if (length l2 <? length l1)%nat then (l2, l1) else (l1, l2) in
  match head l1 with
  | None => None
  | Some b1 => Some (if decide (pad (length l2 - length l1) b1 l1 = l2) then ONE else ZERO)
  end.

(** bv.c 805-818 (bv_list2int): value and power *)
Fixpoint bv_list2int (l : bvec) : option (ArbModel.arbi * ArbModel.arbi) :=
  match l with
  | [] => Some ([0%Z], [1%Z])
  | f :: l =>
    match bv_list2int l with
    | Some (rem, my_pow) =>
      let cur := if decide (f = ZERO) then [0%Z] else my_pow in
      match ArbModel.arbi__mlt my_pow [2%Z] with
      | Some p => Some (ArbModel.arbi__add cur rem, p)
      | None => None
      end
    | None => None
    end
  end.
(** bv.c 820-841 (bv2int): [Some None] is the failure for a symbolic vector *)
Definition bv2int (l : bvec) : M (option ArbModel.arbi) :=
  if is_scalar_list l then
    let* h := hdM l in
    let* abs := abs_bv_list l in
    let* r := liftO (bv_list2int abs) in
    ret (Some (if decide (h = ONE) then ArbModel.arbi__neg r.1 else r.1))
  else ret None.
(** bv.c 1520-1556 (Aint2bv): flip the digits before the last '1' *)
Fixpoint flip_rev (s : list Z) : option (list Z) :=
  match s with
  | [] => None
  | c :: s => if (c =? 49)%Z then Some (c :: map (fun d => if (d =? 49)%Z then 48%Z else 49%Z) s)
              else match flip_rev s with Some r => Some (c :: r) | None => None end
  end.
Definition Aint2bv (fuel : nat) (ai : ArbModel.arbi) : option bvec :=
  let bit (c : Z) : fml := if (c =? 49)%Z then ONE else ZERO in
  if (ArbModel.top ai <? 0)%Z then
    match ArbModel.arbi__ToString fuel (ArbModel.arbi__neg ai) 2 with
    | Some (Some s) => match flip_rev (rev s) with
                       | Some t => Some (trim_bv (ONE :: map bit (rev t)))
                       | None => None
                       end
    | _ => None
    end
  else
    match ArbModel.arbi__ToString fuel ai 2 with
    | Some (Some s) => Some (trim_bv (ZERO :: map bit s))
    | _ => None
    end.
