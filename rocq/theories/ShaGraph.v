(* The text that is hashed for the signature of a graph: SHA256_traverse_graph
   (src/bin/fl/sha256.c 392-512), and the signature itself.

   The heap is a partial map from pointers to nodes, the address NULL is None.  Modelled are
   [], lambdas, applications, cons cells, integers, strings, variables, primitive and external
   functions and user functions (by their signature).  Left out: formulas (SHA256_bdd,
   SHA256_bexpr), reference variables, external objects and the printf family.  The counter is a
   C int, here an unbounded Z; the hash table is an association list. *)
From Coq Require Import ZArith List Bool Ascii.
From Verif Require Import ShaModel VnameModel.
Import ListNotations.
Open Scope Z_scope.
Open Scope list_scope.

Definition ptr := nat.
Inductive leaf :=
| LInt (z : Z) | LStr (s : chars) | LVar (s : chars) | LEfn (s : chars) | LPfn (s : chars) | LUd (s : chars).
Inductive node :=
| NNil
| NLam (v : chars) (body : option ptr)
| NApp (l r : option ptr)
| NCons (hd tl : option ptr)
| NLeaf (k : leaf).
Definition heap := ptr -> option node.

Definition kids (n : node) : list (option ptr) :=
  match n with NLam _ b => [b] | NApp l r => [l; r] | NCons l r => [l; r] | _ => [] end.

(* The calls of SHA256_printf: 407, 413, 420, 425, 430-431, 434, 449-452, 487-488, 506, 512. *)
Definition nl : ascii := "010"%char.
Definition leaf_text (k : leaf) : chars :=
  match k with LInt z => show_int z | LStr s | LVar s | LEfn s | LPfn s | LUd s => s end.
Definition body (n : node) (cs : list Z) : chars :=
  let c1 := nth 0 cs 1 in let c2 := nth 1 cs 1 in
  match n with
  | NNil => ["["; "]"]%char
  | NLam v _ => "\"%char :: v ++ "."%char :: show_nat c1
  | NApp _ _ => show_nat c1 ++ "@"%char :: show_nat c2
  | NCons _ _ => show_nat c1 ++ ":"%char :: show_nat c2
  | NLeaf (LInt z) => "I"%char :: show_int z
  | NLeaf (LStr s) => """"%char :: s ++ [""""%char]
  | NLeaf (LVar s) => ["V"; "A"; "R"; " "]%char ++ s
  | NLeaf (LEfn s) => ["E"; "F"; "N"; "("]%char ++ s ++ [")"%char]
  | NLeaf (LPfn s) => ["P"; "F"; "N"; " "]%char ++ s
  | NLeaf (LUd s) => ["U"; "D"; " "]%char ++ s
  end.
Definition line (res : Z) (n : node) (cs : list Z) : chars :=
  show_nat res ++ "="%char :: body n cs ++ [nl].

Record state := State { s_cnt : Z; s_tbl : list (ptr * Z); s_out : list chars }.
Fixpoint lookup (p : ptr) (t : list (ptr * Z)) : option Z :=
  match t with [] => None | (q, n) :: r => if Nat.eqb q p then Some n else lookup p r end.

Fixpoint each (f : option ptr -> state -> option (Z * state)) (ks : list (option ptr)) (s : state)
  : option (list Z * state) :=
  match ks with
  | [] => Some ([], s)
  | k :: r =>
      match f k s with
      | Some (n, s1) => match each f r s1 with Some (ns, s2) => Some (n :: ns, s2) | None => None end
      | None => None
      end
  end.

(* None: a pointer outside the heap, or out of fuel. *)
Fixpoint trav (fuel : nat) (h : heap) (p : option ptr) (s : state) : option (Z * state) :=
  match fuel, p with
  | O, _ => None
  | _, None => Some (1, s)
  | S k, Some p =>
      match lookup p (s_tbl s) with
      | Some n => Some (n, s)
      | None =>
          match h p with
          | None => None
          | Some nd =>
              let res := s_cnt s in
              match each (trav k h) (kids nd) (State (res + 1) ((p, res) :: s_tbl s) (s_out s)) with
              | None => None
              | Some (cs, s1) => Some (res, State (s_cnt s1) (s_tbl s1) (s_out s1 ++ [line res nd cs]))
              end
          end
      end
  end.

(* sha256_signature / Get_SHA256_signature (261-285, 325-347): the lines printed, what of them
   reaches the hash (do_printf), and the digest. *)
Definition start : state := State 1 [] [].
Definition lines_of (fuel : nat) (h : heap) (r : ptr) : option (list chars) :=
  match trav fuel h (Some r) start with Some (_, s) => Some (s_out s) | None => None end.
Definition byte_of (c : ascii) : Z := Z.of_nat (nat_of_ascii c).
Definition kept (l : chars) : list Z := before_nul (firstn (SHA_BUF_SIZE - 1) (map byte_of l)).
Definition stream (ls : list chars) : list Z := concat (map kept ls).
Definition signature (garbage : list Z) (ls : list chars) : list ascii :=
  sha_hash (fold_left (fun c l => sha_printf c (map byte_of l)) ls (sha_init garbage)).
