(* Model of the compilation of pexlif expressions into composites, src/bin/fl/fsm.c:
   get_wexpr_size (4486), make_input_arg (4559), add_fanout (4594), compile_expr (4622),
   get_lhs_indices (5003), the loop over the functions of a leaf (6855) and rank_order
   (6910) with assign_rank (6889).

   Index lists are lists of node indices (see IlistModel.v for the ranges).  map_vector
   is a parameter: the nodes of a name.  Names are those of declared vectors: map_vector
   declares a new vector at each use of one that is not.
   An error reported with Rprintf or Fail_pr is Stop; a NULL pointer dereferenced, or an
   index that the operators later use out of bounds, is Undef. *)
From Coq Require Import String List Arith ZArith Bool.
From Verif Require Import FsmOps SteModel.
Import ListNotations.

Inductive res (A : Type) := Ret (a : A) | Stop | Undef.
Arguments Ret {A}. Arguments Stop {A}. Arguments Undef {A}.
Definition bind {A B} (r : res A) (f : A -> res B) : res B :=
  match r with Ret a => f a | Stop => Stop | Undef => Undef end.

(* is_binary_wexpr 8155, without W_LAT_LEQ *)
Inductive bin := BAnd | BOr | BAdd | BSub | BMul | BDiv | BMod | BShl | BShr | BAshr.
Definition bin_op (o : bin) : wop :=
  match o with
  | BAnd => OAnd | BOr => OOr | BAdd => OAdd | BSub => OSub | BMul => OMul
  | BDiv => ODiv | BMod => OMod | BShl => OShl | BShr => OShr | BAshr => OAshr
  end.

(* The constructors of wexpr.  The operands are in the order in which compile_expr takes
   them: of W_MEM_READ the address and the memory, of W_MEM_WRITE the address, the data and
   the memory, of W_UPDATE_NAMED_SLICE the base and the new bits, of W_IDELAY the current
   state and then the delayed inputs.  KConst is also W_NAMED_CONST, KSlice also
   W_NAMED_SLICE.  Names of predicates and slices are not used. *)
Inductive kind :=
| KX (sz : nat) | KConst (sz : nat) (v : Z) | KBin (o : bin) | KEq | KGr | KNot | KPred
| KSx (sz : nat) | KZx (sz : nat) | KIte | KSlice (il : list Z) | KUpdate (il : list Z)
| KIdelay (sz mr Mr mf Mf : nat) | KCat
| KMemRead (a lines d : nat) | KMemWrite (a lines d : nat).
(* WVar is W_VAR, with nm = mk_vec_name(base, sz), and W_EXPLICIT_VAR *)
Inductive wexpr := WVar (sz : nat) (nm : string) | WNode (k : kind) (l : list wexpr).

(* get_wexpr_size 4486.  is_W_MEM_READ(we, &d_sz, &lines, &a_sz, ...) is called with the
   arguments for the sizes of the address and of the data exchanged, line 4538: the
   result is the size of the address. *)
Definition ksize (k : kind) (s : list nat) : nat :=
  match k with
  | KX sz | KConst sz _ | KSx sz | KZx sz | KIdelay sz _ _ _ _ => sz
  | KBin _ | KNot | KUpdate _ => nth 0 s 0
  | KIte => nth 1 s 0
  | KEq | KGr | KPred => 1
  | KSlice il => length il
  | KCat => list_sum s
  | KMemRead a _ _ => a
  | KMemWrite _ _ _ => nth 2 s 0
  end.
Fixpoint get_size (e : wexpr) : nat :=
  match e with
  | WVar sz _ => sz
  | WNode k l => ksize k (map get_size l)
  end.

(* The state: number of nodes, the composites, np->composite and np->fanouts *)
Record cst := CS { s_nn : nat; s_comps : list comp; s_drv : nat -> option nat; s_fan : nat -> list nat }.

(* declare_vector 5066 for a temporary of mk_vec_name(buf, sz): "[-1:0]" for size 0 has
   two bits *)
Definition dsize (sz : nat) : nat := if sz =? 0 then 2 else sz.
Definition declare (sz : nat) (s : cst) : list nat * cst :=
  (seq (s_nn s) (dsize sz), CS (s_nn s + dsize sz) (s_comps s) (s_drv s) (s_fan s)).
(* np->composite = comp_idx for the outputs, 4635 *)
Definition mem (n : nat) (l : list nat) : bool := existsb (Nat.eqb n) l.
Definition drive (outs : list nat) (s : cst) : cst :=
  let k := length (s_comps s) in
  CS (s_nn s) (s_comps s) (fun n => if mem n outs then Some k else s_drv s n) (s_fan s).
Definition push (c : comp) (s : cst) : cst := CS (s_nn s) (s_comps s ++ [c]) (s_drv s) (s_fan s).
(* cp->inps = inps; add_fanouts(inps, comp_idx) *)
Definition add_fan (k : nat) (inps : list nat) (f : nat -> list nat) : nat -> list nat :=
  fun n => if mem n inps && negb (mem k (f n)) then k :: f n else f n.
Definition fill (k : nat) (c : comp) (s : cst) : cst :=
  CS (s_nn s) (set_nth (s_comps s) k c) (s_drv s) (add_fan k (c_ins c) (s_fan s)).

(* What compile_expr does for a constructor: the operator, its size, the sizes for
   make_input_arg; whether an empty list for the first operand is dereferenced; the
   size to check for the first operand *)
Record todo := Todo { p_op : wop; p_size : nat; p_args : list nat; p_first : bool; p_chk : option nat }.

Section Compile.
Variable look : string -> list nat.     (* map_vector *)
Variable accurate : bool.               (* which op_ITE, an option of the simulation *)

Definition plan (k : kind) (gs : list nat) (osz : nat) : res todo :=
  let s := nth 0 gs 0 in
  match k with
  | KX sz => Ret (Todo OX sz [] false None)                                    (* 4663 *)
  | KConst sz v => Ret (Todo (OConst v) sz [] false None)                      (* 4670 *)
  | KBin o => Ret (Todo (bin_op o) osz [osz; osz] false None)                  (* 4679 *)
  | KEq => Ret (Todo (OEq s) 1 [s; s] false None)                              (* 4699 *)
  | KGr => Ret (Todo (OGr s) 1 [s; s] false None)
  | KNot => Ret (Todo ONot osz [osz] false None)                               (* 4721 *)
  | KPred => Stop                                                              (* see compile *)
  | KSx sz => Ret (Todo (OSx s) sz [s] false None)                             (* 4739 *)
  | KZx sz => Ret (Todo (OZx s) sz [s] false None)                             (* 4752 *)
  | KIte => Ret (Todo (OIte accurate) osz [1; osz; osz] true None)             (* 4765 *)
  | KSlice il =>                                                               (* 4784 *)
      if negb (osz =? length il) then Stop
      else if existsb (fun i => Z.of_nat s - i - 1 <? 0)%Z il then Stop
      else Ret (Todo (OSlice (map (fun i => Z.to_nat (Z.of_nat s - i - 1)) il)) osz [s] false (Some s))
  | KUpdate il =>                                                              (* 4836 *)
      if negb (s =? osz) then Stop
      else if negb (nth 1 gs 0 =? length il) then Stop
      else if existsb (fun i => Z.of_nat osz - i - 1 <? 0)%Z il then Undef
      else Ret (Todo (OUpdate (map (fun i => Z.to_nat (Z.of_nat osz - i - 1)) il)) osz
                     [osz; nth 1 gs 0] false None)
  | KIdelay sz mr Mr mf Mf =>                                                  (* 4887 *)
      if negb (forallb (Nat.eqb sz) gs) then Stop
      else Ret (Todo (OIdelay mr Mr mf Mf) sz (map (fun _ => sz) gs) (1 <? length gs) None)
  | KCat => Ret (Todo OWire osz gs false None)                                 (* 4922 *)
  | KMemRead a lines d =>                                                      (* 4950 *)
      Ret (Todo (OMemRead a d lines) d [a; lines * d] true None)
  | KMemWrite a lines d =>                                                     (* 4968 *)
      Ret (Todo (OMemWrite a d lines) (lines * d) [a; d; lines * d] true None)
  end.

(* the operands, one after the other *)
Fixpoint run (fs : list ((nat -> cst -> res (list nat * cst)) * nat)) (s : cst)
  : res (list (list nat) * cst) :=
  match fs with
  | [] => Ret ([], s)
  | (f, sz) :: fs =>
      bind (f sz s) (fun '(i, s1) => bind (run fs s1) (fun '(is, s2) => Ret (i :: is, s2)))
  end.
(* make_input_arg 4559; comp is compile_expr of the operand *)
Definition arg (e : wexpr) (comp : list nat -> cst -> res cst) (sz : nat) (s : cst) : res (list nat * cst) :=
  match e with
  | WVar _ nm => Ret (look nm, s)
  | _ => let '(t, s1) := declare sz s in bind (comp t s1) (fun s2 => Ret (t, s2))
  end.

(* compile_expr 4622.  The indices of a slice are checked after its operand is compiled;
   here before. *)
Fixpoint compile (e : wexpr) (outs : list nat) (pdel : bool) (s : cst) {struct e} : res cst :=
  let idx := length (s_comps s) in
  match e with
  | WVar sz nm =>                                                              (* 4645 *)
      Ret (fill idx (Comp OWire sz (look nm) outs pdel 0)
             (push (Comp OWire sz [] outs pdel 0) (drive outs s)))
  | WNode KPred l =>                                                           (* 4733 *)
      match l with [e'] => compile e' outs false (drive outs s) | _ => Stop end
  | WNode k l =>
      bind (plan k (map get_size l) (length outs)) (fun p =>
      if negb (length l =? length (p_args p)) then Stop   (* other constructors *)
      else
        let fs := map (fun e' => arg e' (fun o s' => compile e' o false s')) l in
        bind (run (combine fs (p_args p)) (push (Comp (p_op p) (p_size p) [] outs pdel 0) (drive outs s)))
          (fun '(is, s2) =>
          if p_first p && match is with [] :: _ => true | _ => false end then Undef
          else if match p_chk p, is with Some n, i :: _ => negb (n =? length i) | _, _ => false end then Stop
          else Ret (fill idx (Comp (p_op p) (p_size p) (concat is) outs pdel 0) s2)))
  end.

(* get_lhs_indices 5003; translate_range with an index out of range is Undef *)
Fixpoint pick (v : list nat) (il : list Z) : res (list nat) :=
  match il with
  | [] => Ret []
  | i :: il =>
      let loc := (Z.of_nat (length v) - i - 1)%Z in
      if (loc <? 0)%Z || (Z.of_nat (length v) <=? loc)%Z then Undef
      else bind (pick v il) (fun r => Ret (nth (Z.to_nat loc) v 0 :: r))
  end.
Fixpoint lhs (e : wexpr) : res (list nat) :=
  match e with
  | WVar _ nm => Ret (look nm)
  | WNode (KSlice il) [e'] => bind (lhs e') (fun v => pick v il)
  | WNode KCat l =>
      fold_right (fun e' r => bind (lhs e') (fun v => bind r (fun w => Ret (v ++ w)))) (Ret []) l
  | _ => Stop
  end.

(* The functions of a leaf: W_UPDATE_FN, or W_PHASE_DELAY if st_phase, 6855 *)
Record stmt := Stmt { st_phase : bool; st_lhs : wexpr; st_rhs : wexpr }.
Fixpoint compile_leaf (l : list stmt) (s : cst) : res cst :=
  match l with
  | [] => Ret s
  | f :: l => bind (lhs (st_lhs f)) (fun o => bind (compile (st_rhs f) o (st_phase f) s) (compile_leaf l))
  end.
End Compile.

(* traverse_pexlif 6534, without names: the nodes that it declares for new vectors
   and the leaves that it compiles, one after the other.  A leaf has the table of names of
   its instance, vinfo_tbl.  The result has the declared nodes; the others are
   temporaries. *)
Inductive item := Declare (n : nat) | Leaf (look : string -> list nat) (l : list stmt).
Fixpoint compile_items (accurate : bool) (l : list item) (dn : list nat) (s : cst) : res (list nat * cst) :=
  match l with
  | [] => Ret (dn, s)
  | Declare n :: l =>
      compile_items accurate l (dn ++ seq (s_nn s) n) (CS (s_nn s + n) (s_comps s) (s_drv s) (s_fan s))
  | Leaf look fs :: l => bind (compile_leaf look accurate fs s) (compile_items accurate l dn)
  end.
(* the nodes "!0", "!1", "!X", "!T": 9028 *)
Definition start : cst := CS 4 [] (fun _ => None) (fun _ => []).
Definition const_nodes : list nat := [0; 1; 2; 3].

(* rank_order 6910 over (cp->rank of each composite, max_rank).  Ranks of the composites
   are kept outside of the records. *)
Section Ranks.
Variable s : cst.
Definition rk (r : list nat * nat) (k : nat) : nat := nth k (fst r) 0.
(* 6878 *)
Definition no_fanout (c : comp) : bool :=
  forallb (fun n => match s_fan s n with [] => true | _ => false end) (c_outs c).
(* the composites fed by k, in the order of the two loops *)
Definition feeds (k : nat) : list nat := flat_map (s_fan s) (c_outs (nth k (s_comps s) dummy)).
(* assign_rank 6889 with 1001 - depth = gas: gas 0 is depth > 1000 *)
Fixpoint assign_rank (gas : nat) (k : nat) (r : list nat * nat) : nat * (list nat * nat) :=
  match gas with
  | O => (1, r)
  | S gas =>
      if negb (rk r k =? 0) then (rk r k, r)
      else
        let '(m, r1) := fold_left (fun '(m, r) j => let '(x, r') := assign_rank gas j r in (Nat.max x m, r'))
                          (feeds k) (1, r) in
        (S m, (set_nth (fst r1) k (S m), Nat.max (S m) (snd r1)))
  end.
Definition rank_order : list nat * nat :=
  fold_left (fun r k => snd (assign_rank 1000 k r)) (seq 0 (length (s_comps s)))
    (map (fun c => if c_phase c || no_fanout c then 1 else 0) (s_comps s), 1).
End Ranks.

(* the circuit of a state *)
Definition ranked (c : comp) (k : nat) : comp :=
  Comp (c_op c) (c_size c) (c_ins c) (c_outs c) (c_phase c) k.
Definition to_net (s : cst) : net :=
  let r := rank_order s in
  Net (s_nn s) (map (fun ck => ranked (fst ck) (snd ck)) (combine (s_comps s) (fst r)))
      (s_drv s) (s_fan s) (snd r).
