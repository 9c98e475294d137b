(* Specification for CompModel.v: widths and values of expressions, behaviours of a leaf. *)
From Coq Require Import String List Arith ZArith Bool.
From Verif Require Import FsmOps FsmBool FsmWord FsmDelay CompModel.
Import ListNotations.

(* The width of an expression, from the widths of its operands, if they fit.  Shifts are
   restricted to the widths of C28_shifts. *)
Definition kwidth (k : kind) (ws : list nat) : option nat :=
  let ret (b : bool) n := if b then Some n else None in
  let below (a : nat) (il : list Z) := forallb (fun i => (0 <=? i)%Z && (i <? Z.of_nat a)%Z) il in
  match k, ws with
  | KX sz, [] | KConst sz _, [] => ret (0 <? sz) sz
  | KBin o, [a; b] =>
      ret ((a =? b) && (0 <? a) && match o with BShl => a <=? 32 | BShr | BAshr => a <=? 31 | _ => true end) a
  | KEq, [a; b] | KGr, [a; b] => ret ((a =? b) && (0 <? a)) 1
  | KNot, [a] => ret (0 <? a) a
  | KPred, [a] => ret (a =? 1) 1
  | KSx sz, [a] | KZx sz, [a] => ret ((0 <? sz) && (0 <? a)) sz
  | KIte, [c; a; b] => ret ((c =? 1) && (a =? b) && (0 <? a)) a
  | KSlice il, [a] => ret (below a il && (0 <? length il)) (length il)
  | KUpdate il, [a; c] => ret (below a il && (c =? length il) && (0 <? c)) a
  | KIdelay sz mr Mr mf Mf, _ :: hs =>
      ret (forallb (Nat.eqb sz) ws && (0 <? sz) && (length hs =? Nat.max (Nat.max mr Mr) (Nat.max mf Mf))) sz
  | KCat, _ :: _ => ret (forallb (Nat.ltb 0) ws) (list_sum ws)
  | KMemRead a lines d, [wa; wm] =>
      ret ((wa =? a) && (wm =? lines * d) && (0 <? a) && (0 <? lines) && (0 <? d)
           && (Z.of_nat lines <=? 2 ^ Z.of_nat a)%Z) d
  | KMemWrite a lines d, [wa; wd; wm] =>
      ret ((wa =? a) && (wd =? d) && (wm =? lines * d) && (0 <? a) && (0 <? lines) && (0 <? d)
           && (Z.of_nat lines <=? 2 ^ Z.of_nat a)%Z) (lines * d)
  | _, _ => None
  end.
Fixpoint somes {A} (l : list (option A)) : option (list A) :=
  match l with
  | [] => Some []
  | Some x :: l => match somes l with Some r => Some (x :: r) | None => None end
  | None :: _ => None
  end.

Definition bin_rel (o : bin) (a b v : list bool) : Prop :=
  let m := (2 ^ Z.of_nat (length a))%Z in
  length v = length a /\
  match o with
  | BAnd => v = map (fun p => fst p && snd p) (combine a b)
  | BOr => v = map (fun p => fst p || snd p) (combine a b)
  | BAdd => uval v = ((uval a + uval b) mod m)%Z
  | BSub => uval v = ((uval a - uval b) mod m)%Z
  | BMul => uval v = ((uval a * uval b) mod m)%Z
  | BDiv => uval v = if (uval b =? 0)%Z then (m - 1)%Z else (uval a / uval b)%Z
  | BMod => uval v = if (uval b =? 0)%Z then uval a else (uval a mod uval b)%Z
  | BShl => uval v = ((uval a * 2 ^ uval b) mod m)%Z
  | BShr => uval v = (uval a / 2 ^ uval b)%Z
  | BAshr => sval v = (sval a / 2 ^ uval b)%Z
  end.
(* bit j, counted from the least significant *)
Definition bit (a : list bool) (j : Z) : bool := nth (Z.to_nat j) (rev a) false.
(* v is a value of the constructor for the values of the operands.  Of an X all are. *)
Definition ksem (k : kind) (vals : list (list bool)) (v : list bool) : Prop :=
  match k, vals with
  | KX sz, [] => length v = sz
  | KConst sz c, [] => length v = sz /\ uval v = (c mod 2 ^ Z.of_nat sz)%Z
  | KBin o, [a; b] => bin_rel o a b v
  | KEq, [a; b] => exists r, v = [r] /\ (r = true <-> a = b)
  | KGr, [a; b] => v = [(uval b <? uval a)%Z]
  | KNot, [a] => v = map negb a
  | KPred, [a] => v = a
  | KSx sz, [a] => length v = sz /\
      if sz <=? length a then uval v = (uval a mod 2 ^ Z.of_nat sz)%Z else sval v = sval a
  | KZx sz, [a] => length v = sz /\
      if sz <=? length a then uval v = (uval a mod 2 ^ Z.of_nat sz)%Z else uval v = uval a
  | KIte, [[c]; a; b] => v = if c then a else b
  | KSlice il, [a] => v = map (bit a) il
  | KUpdate il, [a; c] => length v = length a /\
      forall j, (0 <= j < Z.of_nat (length a))%Z ->
        (~ In j il /\ bit v j = bit a j) \/
        (exists i, nth_error il i = Some j /\ (forall i', i < i' -> nth_error il i' <> Some j) /\
                   bit v j = nth i c false)
  | KIdelay sz mr Mr mf Mf, c :: hs => length v = sz /\
      forall i, i < sz ->
        if nth i v false
        then can_be true mr Mf (nth i c false) (fun k => nth i (nth k hs []) false)
        else can_be false mf Mr (nth i c false) (fun k => nth i (nth k hs []) false)
  | KCat, _ => v = concat vals
  | KMemRead a lines d, [ad; m] => length v = d /\
      ((uval ad < Z.of_nat lines)%Z -> v = line_of d lines (Z.to_nat (uval ad)) m)
  | KMemWrite a lines d, [ad; da; m] => length v = lines * d /\
      forall k, k < lines ->
        line_of d lines k v = if (Z.of_nat k =? uval ad)%Z then da else line_of d lines k m
  | _, _ => False
  end.

(* get_wexpr_size gives the width (if every W_MEM_READ it meets has addresses as wide as
   the data) *)
Definition follows (k : kind) (i : nat) : bool :=
  match k with
  | KBin _ | KNot | KUpdate _ => i =? 0
  | KIte => i =? 1
  | KMemWrite _ _ _ => i =? 2
  | KCat => true
  | _ => false
  end.
Fixpoint spine_ok (e : wexpr) : Prop :=
  match e with
  | WVar _ _ => True
  | WNode k l =>
      match k with KMemRead a _ d => a = d | _ => True end /\
      (fix go i l := match l with
                     | [] => True
                     | e :: l => (follows k i = true -> spine_ok e) /\ go (S i) l
                     end) 0 l
  end.
(* of which operands compile_expr asks the width *)
Definition asked (k : kind) (i : nat) : bool :=
  match k with
  | KEq | KGr => i =? 0
  | KSx _ | KZx _ | KSlice _ | KUpdate _ | KIdelay _ _ _ _ _ | KCat => true
  | _ => false
  end.
Fixpoint reads_ok (e : wexpr) : Prop :=
  match e with
  | WVar _ _ => True
  | WNode k l =>
      (fix go i l := match l with
                     | [] => True
                     | e :: l => (asked k i = true -> spine_ok e) /\ reads_ok e /\ go (S i) l
                     end) 0 l
  end.

Section Spec.
Variable look : string -> list nat.

Fixpoint width (e : wexpr) : option nat :=
  match e with
  | WVar sz nm => if (0 <? sz) && (length (look nm) =? sz) then Some sz else None
  | WNode k l => match somes (map width l) with Some ws => kwidth k ws | None => None end
  end.
(* v is a value of e when the nodes have the values x *)
Fixpoint wsem (x : nat -> bool) (e : wexpr) (v : list bool) : Prop :=
  match e with
  | WVar _ nm => v = map x (look nm)
  | WNode k l => exists vals,
      (fix all l vals := match l, vals with
                         | [], [] => True
                         | e :: l, v :: vals => wsem x e v /\ all l vals
                         | _, _ => False
                         end) l vals /\ ksem k vals v
  end.
(* the nodes of the variables *)
Fixpoint nodes_of (e : wexpr) : list nat :=
  match e with
  | WVar _ nm => look nm
  | WNode _ l => flat_map nodes_of l
  end.
End Spec.

(* left-hand sides: variables, slices, concatenations *)
Fixpoint is_lhs (e : wexpr) : Prop :=
  match e with
  | WVar _ _ => True
  | WNode k l => match k with KSlice _ | KCat => True | _ => False end /\
      (fix all l := match l with [] => True | e :: l => is_lhs e /\ all l end) l
  end.

(* The functions of a design, each with the names of its leaf *)
Definition fns (l : list item) : list ((string -> list nat) * stmt) :=
  flat_map (fun it => match it with Declare _ => [] | Leaf look fs => map (pair look) fs end) l.
(* the nodes that a left-hand side denotes *)
Fixpoint targets (look : string -> list nat) (e : wexpr) : list nat :=
  match e with
  | WVar _ nm => look nm
  | WNode (KSlice il) [e'] =>
      map (fun i => nth (Z.to_nat i) (rev (targets look e')) 0) il
  | WNode _ l => flat_map (targets look) l
  end.
(* x is a behaviour of the design: at each time the left-hand side of a function has a value
   of the right-hand side, one time later for a phase delay *)
Definition behaviour (fs : list ((string -> list nat) * stmt)) (x : Z -> nat -> bool) : Prop :=
  (forall t, x t 0 = false /\ x t 1 = true) /\
  forall look f, In (look, f) fs -> forall t, exists v,
    wsem look (x t) (st_rhs f) v /\ wsem look (x (if st_phase f then t + 1 else t)%Z) (st_lhs f) v.
(* what a function needs: widths that agree, and vectors that are declared *)
Definition no_pred (e : wexpr) : Prop := match e with WNode KPred _ => False | _ => True end.
Definition fn_ok (dn : list nat) (look : string -> list nat) (f : stmt) : Prop :=
  is_lhs (st_lhs f) /\ (exists n, width look (st_lhs f) = Some n /\ width look (st_rhs f) = Some n) /\
  reads_ok (st_rhs f) /\ (st_phase f = true -> no_pred (st_rhs f)) /\
  (forall n, In n (nodes_of look (st_rhs f)) -> In n dn /\ n <> 3) /\
  (forall n, In n (targets look (st_lhs f)) -> In n dn /\ 3 < n).
Fixpoint placed (accurate : bool) (l : list item) (dn : list nat) (s : cst) : Prop :=
  match l with
  | [] => True
  | Declare n :: l => placed accurate l (dn ++ seq (s_nn s) n) (CS (s_nn s + n) (s_comps s) (s_drv s) (s_fan s))
  | Leaf look fs :: l => (forall f, In f fs -> fn_ok dn look f) /\
      forall s', compile_leaf look accurate fs s = Ret s' -> placed accurate l dn s'
  end.
Definition single_drivers (fs : list ((string -> list nat) * stmt)) : Prop :=
  NoDup (flat_map (fun p => targets (fst p) (st_lhs (snd p))) fs).
Definition levelled (level : nat -> nat) (fs : list ((string -> list nat) * stmt)) : Prop :=
  forall look f, In (look, f) fs -> st_phase f = false ->
  forall v o, In v (nodes_of look (st_rhs f)) -> In o (targets look (st_lhs f)) -> level v < level o.
