(** Model of the shared and-inverter graphs: /repo/src/bin/fl/bexpr.c (with the
    solver interface of minisat_ifc.cc).

    Simplifications:
    - A [bexpr] is a pointer with a complement mark in bit 2: the pair
      (mark, address).  Address 0 is the node BE_TRUE.
    - The two hash tables are finite maps: [b_uniq] from node contents
      (be_eq) to address, [b_sigs] from signature (be_sig_eq) to the chain
      linked by same_sig_list.
    - The signature arithmetic (bexpr.c 1464-1480, 1496-1501, mk_prandom) is
      an arbitrary pair of functions [c_vsig], [c_asig]: nothing is assumed
      about collisions.
    - The solver is an arbitrary answer function [c_unsat] of the time, the
      clauses and the assumptions; "not proved unsatisfiable" stands for both a
      model and a timeout.
    - be_and (1557-1564) reads f1->height through possibly complemented
      pointers, that is at a wrong offset; the value only decides whether the
      arguments are exchanged, so the decision is the arbitrary [c_swap].
    - BE_Clean removes the nodes outside a set [K] closed under arguments; the C
      program takes the smallest such set containing the roots.
    - [None] stands for undefined behaviour (use of a node that is not there,
      or a solver call with literal 0) or lack of fuel. *)
From stdpp Require Import gmap strings list.
From Coq Require Import NArith ZArith Lia.
From Verif Require Import BddModel.
Open Scope Z_scope.

Notation bref := (prod bool N).
(** bexpr.h 58-67, 1116-1140 (BE_Init) *)
Definition BTRUE : bref := (false, 0%N).
Definition BFALSE : bref := (true, 0%N).
(** bexpr.h 85-87 (BE_NOT, BE_POS, BE_IS_NEG) *)
Definition bref_not (p : bref) : bref := (negb p.1, p.2).
Inductive bnode := NOne | NVar (x : string) | NAnd (l r : bref).
Global Instance bnode_eq_dec : EqDecision bnode.
Proof. solve_decision. Defined.
Global Instance bnode_countable : Countable bnode.
Proof.
  apply (inj_countable' (fun n => match n with NOne => inl (inl ()) | NVar x => inl (inr x) | NAnd l r => inr (l, r) end)
    (fun v => match v with inl (inl _) => NOne | inl (inr x) => NVar x | inr (l, r) => NAnd l r end)). by intros []. Defined.
(** bexpr.h 59-74 (bexpr_rec): contents, sat_idx, sig, has_bdd/bdd *)
Record brec := mkB { b_node : bnode; b_sat : Z; b_sig : Z; b_bdd : option fml }.
(** The state: nodes in use, bexpr_uniq_tbl, bexpr_sig_tbl, free_list, the end of
    the record blocks, the solver's variable count and clauses, and the time. *)
Record bx := mkX {
  b_heap : gmap N brec; b_uniq : gmap bnode N; b_sigs : gmap Z (list N); b_free : list N; b_next : N;
  b_nv : Z; b_cls : list (list Z); b_tick : nat }.
Record cfg := mkC {
  c_vsig : string -> Z; c_asig : bool -> bool -> Z -> Z -> Z; c_tsig : Z;
  c_swap : nat -> bref -> bref -> bool; c_redundant : bool;
  c_unsat : nat -> list (list Z) -> list Z -> bool }.

Definition X (A : Type) : Type := bx -> option (A * bx).
Definition xret {A} (a : A) : X A := fun x => Some (a, x).
Definition xbind {A B} (m : X A) (k : A -> X B) : X B := fun x => match m x with None => None | Some (a, x') => k a x' end.
Notation "'do' x <- m ; k" := (xbind m (fun x => k)) (at level 200, x name, m at level 100, k at level 200).

(** 1116-1133 (BE_Init) *)
Definition be_init (c : cfg) : bx := mkX {[ 0%N := mkB NOne 0 (c_tsig c) None ]} ∅ ∅ [] 1 0 [] 0.

(** 1432-1452 (get_be_node): the address and the remaining free list *)
Definition get_be_node (x : bx) : N * list N * N :=
  match b_free x with p :: fr => (p, fr, b_next x) | [] => (b_next x, [], (b_next x + 1)%N) end.

(** minisat_ifc.cc 184-206 (SAT_Add_AND_Clauses) *)
Definition and_clauses (g l r : Z) : list (list Z) := [[- g; l]; [- g; r]; [g; - l; - r]].
Definition lit_of (neg : bool) (i : Z) : Z := if neg then - i else i.
(** minisat_ifc.cc 235-280 (SAT_and_is_same); literal 0 makes mkLit(-1) *)
Definition SAT_and_is_same (c : cfg) (l r k : Z) : X bool := fun x =>
  if (l =? 0) || (r =? 0) || (k =? 0) then None else
  let t := b_tick x in
  let x' := mkX (b_heap x) (b_uniq x) (b_sigs x) (b_free x) (b_next x) (b_nv x) (b_cls x) (S (S (S t))) in
  Some (c_unsat c t (b_cls x) [l; r; - k] && c_unsat c (S t) (b_cls x) [- l; k] && c_unsat c (S (S t)) (b_cls x) [- r; k], x').
(** 1750-1763 (check_for_eq_with_SAT) along the chain, 1503-1511 *)
Fixpoint find_cand (c : cfg) (ll lr : Z) (chain : list N) : X (option N) :=
  match chain with
  | [] => xret None
  | p :: chain => fun x =>
    match b_heap x !! p with
    | None => None
    | Some r => (do same <- SAT_and_is_same c ll lr (b_sat r); if same then xret (Some p) else find_cand c ll lr chain) x
    end
  end.

(** 1454-1531 (be_find_insert), BE_VAR *)
Definition BE_Var (c : cfg) (name : string) : X bref := fun x =>
  match b_uniq x !! NVar name with
  | Some p => Some ((false, p), x)
  | None =>
    let '(p, fr, nx) := get_be_node x in
    let nv := b_nv x + 1 in
    Some ((false, p), mkX (<[p := mkB (NVar name) nv (c_vsig c name) None]> (b_heap x)) (<[NVar name := p]> (b_uniq x)) (b_sigs x) fr nx nv (b_cls x) (b_tick x))
  end.
(** 1484-1527 (be_find_insert), BE_AND *)
Definition find_insert_and (c : cfg) (l r : bref) : X bref := fun x =>
  match b_uniq x !! NAnd l r with
  | Some p => Some ((false, p), x)
  | None =>
    match b_heap x !! l.2, b_heap x !! r.2 with
    | Some pl, Some pr =>
      let sig := c_asig c l.1 r.1 (b_sig pl) (b_sig pr) in
      let il := lit_of l.1 (b_sat pl) in
      let ir := lit_of r.1 (b_sat pr) in
      let chain := default [] (b_sigs x !! sig) in
      (do cand <- find_cand c il ir chain;
       match cand with
       | Some p => xret (false, p)
       | None => fun x =>
         let '(p, fr, nx) := get_be_node x in
         let nv := Z.max (b_nv x) (Z.max (Z.abs il) (Z.abs ir) + 1) + 1 in
         Some ((false, p), mkX (<[p := mkB (NAnd l r) nv sig None]> (b_heap x)) (<[NAnd l r := p]> (b_uniq x)) (<[sig := chain ++ [p]]> (b_sigs x)) fr nx nv
           (and_clauses nv il ir ++ b_cls x) (b_tick x))
       end) x
    | _, _ => None
    end
  end.
(** 1539-1571 (be_and) *)
Definition be_and (c : cfg) (f1 f2 : bref) : X bref := fun x =>
  if decide (f1 = BFALSE) then Some (BFALSE, x) else
  if decide (f2 = BFALSE) then Some (BFALSE, x) else
  if decide (f1 = BTRUE) then Some (f2, x) else
  if decide (f2 = BTRUE) then Some (f1, x) else
  if decide (f1 = f2) then Some (f1, x) else
  if decide (f1 = bref_not f2) then Some (BFALSE, x) else
  if c_swap c (b_tick x) f1 f2 then find_insert_and c f2 f1 x else find_insert_and c f1 f2 x.
(** 186-238 *)
Definition BE_Not (f : bref) : bref := bref_not f.
Definition BE_Nor c f1 f2 : X bref := be_and c (bref_not f1) (bref_not f2).
Definition BE_Nand c f1 f2 : X bref := do r <- be_and c f1 f2; xret (bref_not r).
Definition BE_And c f1 f2 : X bref := be_and c f1 f2.
Definition BE_Or c f1 f2 : X bref := do r <- be_and c (bref_not f1) (bref_not f2); xret (bref_not r).
Definition BE_Ite (c : cfg) (i t e : bref) : X bref :=
  do a <- be_and c i t; do b <- be_and c (bref_not i) e; do res <- BE_Or c a b;
  if c_redundant c then (do d <- be_and c t e; BE_Or c res d) else xret res.
Definition BE_Xor c f1 f2 : X bref := do a <- be_and c (bref_not f1) f2; do b <- be_and c f1 (bref_not f2); BE_Or c a b.
Definition BE_Xnor c f1 f2 : X bref := do a <- be_and c (bref_not f1) (bref_not f2); do b <- be_and c f1 f2; BE_Or c a b.

(** 140-150 (insert_node_in_signature_tbl): second place of the chain *)
Definition sig_insert (sg : gmap Z (list N)) (p : N) (r : brec) : gmap Z (list N) :=
  match sg !! b_sig r with
  | Some (h :: t) => <[b_sig r := h :: p :: t]> sg
  | _ => <[b_sig r := [p]]> sg
  end.
(** 152-183 (BE_Clean) *)
Definition addresses (x : bx) : list N := map N.of_nat (seq 0 (N.to_nat (b_next x))).
Definition BE_Clean (K : gset N) (x : bx) : bx :=
  mkX (filter (fun e => e.1 ∈ K) (b_heap x))
      (filter (fun e => e.2 ∈ K) (b_uniq x))
      (foldl (fun sg p => match b_heap x !! p with Some r => if decide (p ∈ K) then sig_insert sg p r else sg | None => sg end) ∅ (addresses x))
      (filter (fun p => b_heap x !! p = None \/ p ∉ K) (reverse (addresses x)))
      (b_next x) (b_nv x) (b_cls x) (b_tick x).
(** The roots are kept and the set is closed: what [mark] (1378-1388) ensures. *)
Definition closed (K : gset N) (x : bx) : Prop :=
  0%N ∈ K /\ forall p r l1 r1, p ∈ K -> b_heap x !! p = Some r -> b_node r = NAnd l1 r1 -> l1.2 ∈ K /\ r1.2 ∈ K.

(** 1618-1650 (be_subst): [memo] is res_tbl, compared by contents (be_eq) *)
Fixpoint be_subst (c : cfg) (fuel : nat) (sub : gmap string bref) (be : bref) (memo : gmap bnode bref) : X (bref * gmap bnode bref) :=
  match fuel with O => fun _ => None | S fuel => fun x =>
    if decide (be = BTRUE \/ be = BFALSE) then Some ((be, memo), x) else
    let sgn (r : bref) := if be.1 then bref_not r else r in
    match b_heap x !! be.2 with
    | None => None
    | Some b =>
      match memo !! b_node b with
      | Some res => Some ((sgn res, memo), x)
      | None =>
        match b_node b with
        | NVar v => Some ((match sub !! v with Some res => sgn res | None => be end, memo), x)
        | NAnd l r =>
          (do pl <- be_subst c fuel sub l memo;
           do pr <- be_subst c fuel sub r pl.2;
           do res <- (if decide (l = pl.1 /\ r = pr.1) then xret (false, be.2) else be_and c pl.1 pr.1);
           xret (sgn res, <[b_node b := res]> pr.2)) x
        | NOne => None
        end
      end
    end
  end.
(** 595-621 (bsubstitute): duplicates are refused *)
Fixpoint mk_subst (l : list (string * bref)) (m : gmap string bref) : option (gmap string bref) :=
  match l with
  | [] => Some m
  | (v, e) :: l => match m !! v with Some _ => None | None => mk_subst l (<[v := e]> m) end
  end.
Fixpoint subst_list (c : cfg) (fuel : nat) (sub : gmap string bref) (l : list bref) (memo : gmap bnode bref) : X (list bref) :=
  match l with
  | [] => xret []
  | b :: l => do p <- be_subst c fuel sub b memo; do rest <- subst_list c fuel sub l p.2; xret (p.1 :: rest)
  end.
Definition bsubstitute (c : cfg) (fuel : nat) (sub : list (string * bref)) (l : list bref) : X (option (list bref)) :=
  match mk_subst sub ∅ with
  | None => xret None
  | Some m => do r <- subst_list c fuel m l ∅; xret (Some r)
  end.

(** 1402-1430 (be2bdd), with both states; [sub] is bexpr2bdd_sub_tbl.  The
    collection that may happen inside is a separate step. *)
Definition set_bdd (x : bx) (p : N) (f : fml) : bx :=
  match b_heap x !! p with
  | None => x
  | Some b => mkX (<[p := mkB (b_node b) (b_sat b) (b_sig b) (Some f)]> (b_heap x)) (b_uniq x) (b_sigs x) (b_free x) (b_next x) (b_nv x) (b_cls x) (b_tick x)
  end.
Definition sign (neg : bool) (f : fml) : M fml := if neg then B_Not f else ret f.
Fixpoint be2bdd (fuel : nat) (sub : gmap string fml) (be : bref) (x : bx) (s : bst) : option (fml * bx * bst) :=
  match fuel with O => None | S fuel =>
    if decide (be = BFALSE) then Some (ZERO, x, s) else
    if decide (be = BTRUE) then Some (ONE, x, s) else
    match b_heap x !! be.2 with
    | None => None
    | Some b =>
      match b_bdd b with
      | Some f => match sign be.1 f s with Some (g, s') => Some (g, x, s') | None => None end
      | None =>
        let res := match b_node b with
          | NVar v => match sub !! v with
                      | Some f => Some (f, x, s)
                      | None => match B_Var v s with Some (f, s') => Some (f, x, s') | None => None end
                      end
          | NAnd l r =>
            match be2bdd fuel sub l x s with
            | Some (fl, x1, s1) =>
              match be2bdd fuel sub r x1 s1 with
              | Some (fr, x2, s2) => match B_And fl fr s2 with Some (f, s3) => Some (f, x2, s3) | None => None end
              | None => None
              end
            | None => None
            end
          | NOne => None
          end in
        match res with
        | Some (f, x', s') => match sign be.1 f s' with Some (g, s'') => Some (g, set_bdd x' be.2 f, s'') | None => None end
        | None => None
        end
      end
    end
  end.

(** 1937-1959 (bdd2bexpr) with new_bdd.c 365-378 (Get_top_cofactor); [memo] is
    bdd2bexpr_tbl.  Formula ONE is the complemented terminal (new_bdd.h). *)
Fixpoint bdd2bexpr (c : cfg) (fuel : nat) (s : bst) (f : fml) (memo : gmap N bref) : X (bref * gmap N bref) :=
  match fuel with O => fun _ => None | S fuel =>
    if decide (f = ONE) then xret (BTRUE, memo) else
    if decide (f = ZERO) then xret (BFALSE, memo) else
    let sgn (r : bref) := if f.1 then bref_not r else r in
    match memo !! f.2 with
    | Some r => xret (sgn r, memo)
    | None =>
      match nodes s !! f.2 with
      | None => fun _ => None
      | Some (v, hi, lo) =>
        match vnames s !! N.to_nat v with
        | None => fun _ => None
        | Some name =>
          do xv <- BE_Var c name;
          do h <- bdd2bexpr c fuel s hi memo;
          do l <- bdd2bexpr c fuel s lo h.2;
          do res <- BE_Ite c xv h.1 l.1;
          xret (sgn res, <[f.2 := res]> l.2)
        end
      end
    end
  end.
