(** Model of the bit vectors over and-inverter graphs: /repo/src/bin/fl/bev.c.

    A vector is the list of its nodes, most significant (sign) bit first, as in
    [bev_rec.u.l].  The nodes and the operations of bexpr.c on them are the
    fields of [alg]: bev.c uses them through these names only, and compares
    nodes with [==] ([same]).  [None] is taking the head of NIL, or lists of
    different lengths where the code walks two lists together.  Records,
    reference counts and garbage collection are not modelled. *)
From Coq Require Import List Arith ZArith Lia Bool.
Import ListNotations.

(** the part of bexpr.c used: BE_One, BE_Zero, BE_Not, BE_And, BE_Or, BE_Xor, BE_Xnor, BE_Ite, and [==] of two nodes *)
Record alg := { node : Type; One : node; Zero : node; Not : node -> node; And : node -> node -> node; Or : node -> node -> node;
                Xor : node -> node -> node; Xnor : node -> node -> node; Ite : node -> node -> node -> node; same : node -> node -> bool }.
Arguments One {a}. Arguments Zero {a}. Arguments Not {a}. Arguments And {a}. Arguments Or {a}.
Arguments Xor {a}. Arguments Xnor {a}. Arguments Ite {a}. Arguments same {a}.

Definition bnd {X Y} (o : option X) (k : X -> option Y) : option Y := match o with Some x => k x | None => None end.
Notation "'get' x 'from' o ; k" := (bnd o (fun x => k)) (at level 200, x pattern, o at level 100, k at level 200).

Section Bev.
Context {A : alg}.
Notation vec := (list (node A)).

(** bev.c 36-50 (trim_bev) *)
Fixpoint trim_bev (l : vec) : vec :=
  match l with
  | f :: (g :: _) as r => if same f g then trim_bev r else l
  | _ => l
  end.
(** bev.c 237-259 (sx2), 261-280 (zx2) *)
Definition sx1 (n : nat) (l : vec) : option vec :=
  match n - length l, hd_error l with
  | O, _ => Some l
  | k, Some f => Some (repeat f k ++ l)
  | _, None => None
  end.
Definition sx2 (l1 l2 : vec) : option (vec * vec) :=
  get a from sx1 (length l2) l1; get b from sx1 (length l1) l2; Some (a, b).
Definition zx2 (l1 l2 : vec) : vec * vec :=
  (repeat Zero (length l2 - length l1) ++ l1, repeat Zero (length l1 - length l2) ++ l2).
Fixpoint map2 (op : node A -> node A -> node A) (l1 l2 : vec) : option vec :=
  match l1, l2 with
  | [], _ => Some []
  | a :: l1, b :: l2 => get r from map2 op l1 l2; Some (op a b :: r)
  | _ :: _, [] => None
  end.
(** bev.c 301-318 (add_rec): the sum bits and the carry out *)
Fixpoint add_rec (neg : bool) (l1 l2 : vec) : option (vec * node A) :=
  match l1, l2 with
  | [], [] => Some ([], if neg then One else Zero)
  | a :: l1, b :: l2 =>
    get (rem, cin) from add_rec neg l1 l2;
    let b := if neg then Not b else b in
    Some (Xor a (Xor b cin) :: rem, Or (And a b) (Or (And a cin) (And b cin)))
  | _, _ => None
  end.
(** bev.c 320-328 (gen_add) *)
Definition gen_add (neg : bool) (l1 l2 : vec) : option vec :=
  get h1 from hd_error l1; get h2 from hd_error l2;
  get (r, _) from add_rec neg (h1 :: l1) (h2 :: l2);
  Some (trim_bev r).
(** bev.c 330-339 (is_zero_list) *)
Definition is_zero_list (l : vec) : node A := fold_left (fun z f => And z (Not f)) l One.
(** bev.c 341-347 (negate_bev_list), 349-355 (decrement_bev_list) *)
Definition negate_bev_list (l : vec) : option vec :=
  get (l, zero) from sx2 l [Zero]; get r from gen_add true zero l; Some (trim_bev r).
Definition decrement_bev_list (l : vec) : option vec :=
  get (l, one) from sx2 l [Zero; One]; get r from gen_add true l one; Some (trim_bev r).
(** bev.c 357-371 (ite_bev_list) *)
Definition ite_bev_list (cond : node A) (l1 l2 : vec) : option vec :=
  get (a, b) from sx2 l1 l2;
  get r from map2 (fun nb pb => Or (And cond nb) (And (Not cond) pb)) a b;
  Some (trim_bev r).
(** bev.c 373-379 (abs_bev_list) *)
Definition abs_bev_list (l : vec) : option vec :=
  get neg from hd_error l; get l_neg from negate_bev_list l;
  get r from ite_bev_list neg l_neg l; Some (trim_bev r).
(** bev.c 381-401 (mult_bev_list) *)
Fixpoint mult_bev_list (xv yv : vec) : option vec :=
  match yv with
  | [] => Some [Zero]
  | y :: yv' =>
    get rem from mult_bev_list xv yv';
    let prod := Zero :: map (And y) xv ++ repeat Zero (length yv') in
    let (prod, rem) := zx2 prod rem in
    get r from gen_add false prod rem;
    Some (trim_bev r)
  end.
(** bev.c 403-415 (less_rec), 417-428 (less_than_bev_list) *)
Fixpoint less_rec (l1 l2 : vec) : option (node A) :=
  match l1, l2 with
  | [], [] => Some Zero
  | a :: l1, b :: l2 => get rem from less_rec l1 l2; Some (Or (And (Not a) b) (And (Xnor a b) rem))
  | _, _ => None
  end.
Definition less_than_bev_list (l1 l2 : vec) : option (node A) :=
  get (l1, l2) from sx2 l1 l2;
  get neg1 from hd_error l1; get neg2 from hd_error l2;
  get raw from less_rec l1 l2;
  Some (Ite neg1 (Ite neg2 raw One) (Ite neg2 Zero raw)).
(** bev.c 430-461 (bev_eq_list): the missing bits of the shorter list are its sign *)
Fixpoint eq_loop (res : node A) (l1 l2 : vec) : option (node A) :=
  match l1, l2 with
  | [], [] => Some res
  | a :: l1, b :: l2 => eq_loop (And res (Xnor a b)) l1 l2
  | _, _ => None
  end.
Definition bev_eq_list (l1 l2 : vec) : option (node A) :=
  let (l1, l2) := if length l2 <? length l1 then (l2, l1) else (l1, l2) in
  get b1 from hd_error l1;
  eq_loop One (repeat b1 (length l2 - length l1) ++ l1) l2.
(** bev.c 137-141 (is_symbolic), 463-474 (is_scalar_list), 476-497 (constant_power_of_two); [None] is -1 *)
Definition is_scalar_list (l : vec) : bool := forallb (fun f => same f One || same f Zero) l.
Fixpoint after_one (l : vec) : option vec :=
  match l with [] => None | f :: l => if same f One then Some l else after_one l end.
Definition constant_power_of_two (l : vec) : option nat :=
  if is_scalar_list l then
    match after_one l with
    | None => None
    | Some r => if forallb (fun f => negb (same f One)) r then Some (length r) else None
    end
  else None.
(** bev.c 558-565, 566-572, 545-587: long division *)
Fixpoint sub_loop (r b : vec) : option (vec * node A) :=
  match r, b with
  | [], [] => Some ([], One)
  | x :: r, b0 :: b =>
    get (sub, cin) from sub_loop r b;
    let y := Not b0 in
    Some (Xor cin (Xor x y) :: sub, Or (And x y) (Or (And x cin) (And y cin)))
  | _, _ => None
  end.
Fixpoint geq_loop (r b : vec) : option (node A) :=
  match r, b with
  | [], [] => Some One
  | ri :: r, bi :: b => get geq from geq_loop r b; Some (Or (And ri (Not bi)) (And (Xnor ri bi) geq))
  | _, _ => None
  end.
Fixpoint div_bits (av bb q r : vec) : option (vec * vec) :=
  match av with
  | [] => Some (q, r)
  | a :: av =>
    let r := tl r ++ [a] in
    get (sub, _) from sub_loop r bb;
    get geq from geq_loop r bb;
    get r from map2 (Ite geq) sub r;
    div_bits av bb (tl q ++ [geq]) r
  end.
(** bev.c 499-607 (fixed_ext_bevdiv) *)
Definition fixed_ext_bevdiv (av bev : vec) : option (vec * vec) :=
  let sz := length av in
  if sz =? length bev then
    match constant_power_of_two bev with
    | Some cnt => Some (repeat Zero cnt ++ firstn (sz - cnt) av, repeat Zero (sz - cnt) ++ skipn (sz - cnt) av)
    | None => div_bits av bev (repeat Zero sz) (repeat Zero sz)
    end
  else None.
(** bev.c 764-800 (bev_add, bev_sub); [get_bev_rec] trims once more *)
Definition bev_add (l1 l2 : vec) : option vec := get (a, b) from sx2 l1 l2; get r from gen_add false a b; Some (trim_bev r).
Definition bev_sub (l1 l2 : vec) : option vec := get (a, b) from sx2 l1 l2; get r from gen_add true a b; Some (trim_bev r).
(** bev.c 802-839 (bev_mul) *)
Definition bev_mul (l1 l2 : vec) : option vec :=
  let (av, bev) := if length l1 <? length l2 then (l2, l1) else (l1, l2) in
  get neg_a from hd_error av; get abs_av from abs_bev_list av;
  get neg_b from hd_error bev; get abs_bev from abs_bev_list bev;
  get prod from mult_bev_list abs_av abs_bev;
  let abs_res := Zero :: prod in
  get neg_res from negate_bev_list abs_res;
  get (abs_res, neg_res) from sx2 abs_res neg_res;
  get r from ite_bev_list (Xor neg_a neg_b) neg_res abs_res;
  Some (trim_bev r).
(** bev.c 841-857 (signed_bevdiv), 887-921 (bev_div, bev_mod) *)
Definition signed_bevdiv (dv nv : vec) : option (vec * vec) :=
  get neg_d from hd_error dv; get neg_n from hd_error nv;
  get abs_dv from abs_bev_list dv; get abs_nv from abs_bev_list nv;
  let (abs_dv, abs_nv) := zx2 abs_dv abs_nv in
  get (Qraw, Rraw) from fixed_ext_bevdiv abs_dv abs_nv;
  let exact := is_zero_list Rraw in
  let same_sign := Xnor neg_d neg_n in
  get nq from negate_bev_list Qraw;
  get Q0 from ite_bev_list same_sign Qraw nq;
  get dq from decrement_bev_list Q0;
  get Q from ite_bev_list (Or exact same_sign) Q0 dq;
  get rn from gen_add true Rraw abs_nv;
  get R0 from ite_bev_list same_sign Rraw rn;
  get nr from negate_bev_list R0;
  get R1 from ite_bev_list neg_d nr R0;
  get R from ite_bev_list exact Rraw R1;
  Some (Q, R).
Definition bev_div (l1 l2 : vec) : option vec := get (q, _) from signed_bevdiv l1 l2; Some (trim_bev q).
Definition bev_mod (l1 l2 : vec) : option vec := get (_, r) from signed_bevdiv l1 l2; Some (trim_bev r).
(** bev.c 859-885 (bev_ashr) for a count that is not negative (a negative one is reported) *)
Definition bev_ashr (l : vec) (cnt : nat) : vec := if cnt =? 0 then l else trim_bev (firstn (length l - cnt) l).
(** bev.c 923-939 (bev_NOT), 941-952 (bev_ZX), 954-1056 (bev_AND, bev_OR, bev_XOR, bev_XNOR) *)
Definition bev_NOT (l : vec) : vec := trim_bev (map Not l).
Definition bev_ZX (l : vec) : vec := trim_bev (trim_bev (Zero :: l)).
Definition bev_bitwise (op : node A -> node A -> node A) (l1 l2 : vec) : option vec :=
  get (a, b) from sx2 l1 l2; get r from map2 op a b; Some (trim_bev r).
Definition bev_AND := bev_bitwise And.
Definition bev_OR := bev_bitwise Or.
Definition bev_XOR := bev_bitwise Xor.
Definition bev_XNOR := bev_bitwise Xnor.
(** bev.c 1058-1166 *)
Definition bev_less (l1 l2 : vec) := less_than_bev_list l1 l2.
Definition bev_leq (l1 l2 : vec) := get f from less_than_bev_list l2 l1; Some (Not f).
Definition bev_greater (l1 l2 : vec) := less_than_bev_list l2 l1.
Definition bev_geq (l1 l2 : vec) := get f from less_than_bev_list l1 l2; Some (Not f).
Definition bev_eq (l1 l2 : vec) := bev_eq_list l1 l2.
Definition bev_neq (l1 l2 : vec) := get f from bev_eq_list l1 l2; Some (Not f).
(** bev.c 685-698 (bev_list2int), with the big integers as [Z]: the value and the next power of two *)
Fixpoint bev_list2int (l : vec) : Z * Z :=
  match l with
  | [] => (0, 1)%Z
  | f :: l => let (rem, my_pow) := bev_list2int l in ((if same f Zero then 0 else my_pow) + rem, my_pow * 2)%Z
  end.
(** bev.c 700-718 (bev2int): [Some None] is the failure for a symbolic vector *)
Definition bev2int (l : vec) : option (option Z) :=
  if is_scalar_list l then
    get h from hd_error l;
    get abs from abs_bev_list l;
    Some (Some (if same h One then - fst (bev_list2int abs) else fst (bev_list2int abs))%Z)
  else Some None.
(** bev.c 720-761 (int2bev); [digits] is [Arbi_ToString] to base 2 of a positive number.  For a negative number the
    digits before the last '1' are inverted. *)
Fixpoint digits (p : positive) : list bool :=
  match p with xH => [true] | xO p => digits p ++ [false] | xI p => digits p ++ [true] end.
Fixpoint flip_rev (r : list bool) : option (list bool) :=
  match r with
  | [] => None
  | true :: r => Some (true :: map negb r)
  | false :: r => get s from flip_rev r; Some (false :: s)
  end.
Definition bit (b : bool) : node A := if b then One else Zero.
Definition int2bev (n : Z) : option vec :=
  match n with
  | Z0 => Some (trim_bev (Zero :: map bit [false]))
  | Zpos p => Some (trim_bev (Zero :: map bit (digits p)))
  | Zneg p => get s from flip_rev (rev (digits p)); Some (trim_bev (One :: map bit (rev s)))
  end.
(** preamble.fl 44-47 (bevTHEN), 781 (bev_neg) *)
Definition bevTHEN (c : node A) (t e : vec) : option vec :=
  let cb := trim_bev [c] in
  get x from bev_AND cb t; get y from bev_AND (bev_NOT cb) e; bev_OR x y.
Definition bev_neg (l : vec) : option vec := get one from int2bev 1; bev_add (bev_NOT l) one.
(** preamble.fl 758-761 (bev_pow), 764-766 (bev_shl), 774-776 (bev_ashr_bevbev).  The operations of bev.c evaluate both
    arguments, so both branches of the THEN are evaluated.  Each unit of fuel allows one call of [bev_pow]. *)
Fixpoint bev_pow (fuel : nat) (base n : vec) : option vec :=
  match fuel with
  | O => None
  | S fuel =>
    get zero from int2bev 0; get one from int2bev 1;
    get c from bev_geq n zero;
    get n1 from bev_sub n one;
    get p from bev_pow fuel base n1;
    get e from bev_mul base p;
    bevTHEN c one e
  end.
Definition bev_shl (fuel : nat) (n amount : vec) : option vec :=
  get two from int2bev 2; get p from bev_pow fuel two amount; bev_mul n p.
Definition bev_ashr_bevbev (fuel : nat) (n amount : vec) : option vec :=
  get two from int2bev 2; get p from bev_pow fuel two amount; bev_div n p.
End Bev.
