(* The search for a needle in a haystack (src/bin/fl/iso.c): adjacency and candidate matrices and
   the resumable depth-first search lazy_search.

   A matrix is a list of rows.  allocate_matrix (136-150) lays the rows out one after the other,
   so that mat[0][j + cols*i] is mat[i][j].  What get_top_adjacencies and the attributes of a
   pexlif deliver (pairs of indices; fingerprints and SHA sums) is taken as given.  Memory is
   unbounded, a call of malloc does not fail. *)
From Coq Require Import List Bool Arith Lia.
Import ListNotations.

Definition mat := list (list bool).
Definition get (m : mat) (i j : nat) : bool := nth j (nth i m []) false.
Fixpoint upd {A : Type} (l : list A) (i : nat) (x : A) : list A :=
  match l, i with
  | [], _ => []
  | _ :: r, O => x :: r
  | y :: r, S k => y :: upd r k x
  end.
Definition put (m : mat) (i j : nat) (b : bool) : mat := upd m i (upd (nth i m []) j b).

Definition allocate_matrix (r c : nat) : mat := repeat (repeat false c) r.
(* trim_matrix (163-187): without the first row and the first column. *)
Definition trim_matrix (m : mat) : mat := map (@tl bool) (tl m).

(* mk_adj (264-286): None is a write outside the matrix. *)
Fixpoint add_edges (n : nat) (m : mat) (ps : list (nat * nat)) : option mat :=
  match ps with
  | [] => Some m
  | (i, j) :: r => if (i <? n) && (j <? n) then add_edges n (put (put m i j true) j i true) r else None
  end.
Definition mk_adj (n : nat) (ps : list (nat * nat)) : option mat :=
  match add_edges n (allocate_matrix n n) ps with
  | Some m => Some (fold_left (fun m i => put m i i false) (seq 0 n) m)
  | None => None
  end.

(* mk_iso_matrix (377-396): a signature is a fingerprint and a SHA sum, here two numbers. *)
Definition sig := (nat * nat)%type.
Definition mk_iso_matrix (p g : list sig) : mat :=
  map (fun r => map (fun c => Nat.eqb (fst r) (fst c) || Nat.eqb (snd r) (snd c)) g) p.

(* is_single (439-461): None is the return inside the loops. *)
Fixpoint scan_row (row : list bool) (j : nat) (seen : bool) (used : list bool) : option (list bool) :=
  match row with
  | [] => Some used
  | b :: r =>
      if b then if seen || nth j used false then None else scan_row r (S j) true (upd used j true)
      else scan_row r (S j) seen used
  end.
Fixpoint scan_rows (m : mat) (used : list bool) : bool :=
  match m with
  | [] => true
  | row :: r => match scan_row row 0 false used with Some used' => scan_rows r used' | None => false end
  end.
Definition is_single (cols : nat) (iso : mat) : bool := scan_rows iso (repeat false cols).

(* is_isomorphism (463-504) *)
Definition is_isomorphism (R C : nat) (iso p g : mat) : bool :=
  forallb (fun i => forallb (fun j =>
      let t1 := existsb (fun k =>
          let t2 := existsb (fun l => get iso j l && get g l k) (seq 0 C) in
          get iso i k && t2) (seq 0 C) in
      negb (get p i j && negb t1)) (seq 0 R)) (seq 0 R).
Definition is_match (R C : nat) (iso p g : mat) : bool := is_single C iso && is_isomorphism R C iso p g.

(* trim (518-549) and undo_trim (551-563): the list of updates, in the order they were made. *)
Definition trim_cell (g : mat) (c : nat) (i : nat) (s : mat * list (nat * nat)) (j : nat) : mat * list (nat * nat) :=
  let (m, u) := s in
  if negb (get g c j) && get m i j then (put m i j false, u ++ [(i, j)]) else (m, u).
Definition trim (R C : nat) (iso p g : mat) (r c : nat) : mat * list (nat * nat) :=
  fold_left (fun s i => if get p r i then fold_left (trim_cell g c i) (seq 0 C) s else s)
            (seq (S r) (R - S r)) (iso, []).
Definition undo_trim (iso : mat) (ps : list (nat * nat)) : mat :=
  fold_left (fun m ij => put m (fst ij) (snd ij) true) ps iso.

(* pick (565-573) and undo_pick (575-581): the row is saved, cleared, and one cell set. *)
Definition pick (C : nat) (iso cpy : mat) (r c : nat) : mat * mat :=
  (upd iso r (upd (repeat false C) c true), upd cpy r (nth r iso [])).
Definition undo_pick (iso cpy : mat) (r : nat) : mat := upd iso r (nth r cpy []).

(* search_rec (iso.h 79-92) and init_search (690-716) *)
Record search := Search {
  s_row : nat; s_cols : list nat; s_set : list bool; s_used : list bool;
  s_changes : list (list (nat * nat)); s_copy : mat;
  s_iso : mat; s_needle : mat; s_haystack : mat }.
Definition init_search (R C : nat) (iso p g : mat) : search :=
  Search 0 (repeat 0 R) (repeat false (S R)) (repeat false C) (repeat [] R) (allocate_matrix R C) iso p g.

(* lazy_search (735-821), one run through the label loop. *)
Inductive outcome := Go (s : search) | Found (m : mat) (s : search) | Exhausted (s : search).

(* while(next < C && (used[next] || !M[row][next])) next++; None when next reaches C. *)
Fixpoint next_col (used row : list bool) (start n : nat) : option nat :=
  match n with
  | O => None
  | S k => if nth start used false || negb (nth start row false) then next_col used row (S start) k else Some start
  end.

Definition advance (R C : nat) (s : search) (start : nat) : outcome :=
  let r := s_row s in
  match next_col (s_used s) (nth r (s_iso s) []) start (C - start) with
  | Some c =>
      let (m1, ch) := trim R C (s_iso s) (s_needle s) (s_haystack s) r c in
      let (m2, cpy) := pick C m1 (s_copy s) r c in
      Go (Search (S r) (upd (s_cols s) r c) (upd (s_set s) r true) (upd (s_used s) c true)
                 (upd (s_changes s) r ch) cpy m2 (s_needle s) (s_haystack s))
  | None =>
      match r with
      | O => Exhausted s
      | S r' => Go (Search r' (s_cols s) (s_set s) (s_used s) (s_changes s) (s_copy s) (s_iso s)
                           (s_needle s) (s_haystack s))
      end
  end.

Definition step (R C : nat) (s : search) : outcome :=
  let r := s_row s in
  if Nat.eqb r R then
    if negb (nth R (s_set s) false) && is_match R C (s_iso s) (s_needle s) (s_haystack s)
    then Found (s_iso s) (Search r (s_cols s) (upd (s_set s) R true) (s_used s) (s_changes s) (s_copy s)
                                 (s_iso s) (s_needle s) (s_haystack s))
    else Go (Search (R - 1) (s_cols s) (upd (s_set s) R false) (s_used s) (s_changes s) (s_copy s)
                    (s_iso s) (s_needle s) (s_haystack s))
  else if nth r (s_set s) false then
    let c := nth r (s_cols s) 0 in
    let m1 := undo_pick (s_iso s) (s_copy s) r in
    let m2 := undo_trim m1 (nth r (s_changes s) []) in
    advance R C (Search r (s_cols s) (upd (s_set s) r false) (upd (s_used s) c false) (s_changes s) (s_copy s)
                        m2 (s_needle s) (s_haystack s)) (S c)
  else advance R C s 0.

(* A call: None is out of fuel, Some (None, _) the answer NULL. *)
Fixpoint lazy_search (fuel R C : nat) (s : search) : option (option mat * search) :=
  match fuel with
  | O => None
  | S k =>
      match step R C s with
      | Go s' => lazy_search k R C s'
      | Found m s' => Some (Some m, s')
      | Exhausted s' => Some (None, s')
      end
  end.

(* internal_search_step_fn (936-965): the list of pairs, [] when there is no more match. *)
Fixpoint first_true (row : list bool) : nat :=
  match row with [] => 0 | b :: r => if b then 0 else S (first_true r) end.
Definition answer (m : mat) : list (nat * nat) :=
  map (fun i => (i, first_true (nth i m []))) (seq 0 (length m)).
Definition search_step (fuel R C : nat) (s : search) : option (list (nat * nat) * search) :=
  match lazy_search fuel R C s with
  | Some (Some m, s') => Some (answer m, s')
  | Some (None, s') => Some ([], s')
  | None => None
  end.
Fixpoint search_steps (fuel R C n : nat) (s : search) : option (list (list (nat * nat))) :=
  match n with
  | O => Some []
  | S k =>
      match search_step fuel R C s with
      | Some (a, s') => match search_steps fuel R C k s' with Some l => Some (a :: l) | None => None end
      | None => None
      end
  end.

(* internal_search_create_fn (879-934): sizes, matrices, the wrapper removed if asked for.  The
   adjacency lists must not be empty (mk_adj fails on NIL). *)
Definition search_create (psigs gsigs : list sig) (padj gadj : list (nat * nat)) (wrapped : bool)
  : option (nat * nat * search) :=
  let n := length psigs in let h := length gsigs in
  if (n <=? 1) || (h <=? 1) then None
  else match padj, gadj with
  | [], _ | _, [] => None
  | _, _ =>
      match mk_adj n padj, mk_adj h gadj with
      | Some p, Some g =>
          let iso := mk_iso_matrix psigs gsigs in
          if wrapped
          then Some (n - 1, h - 1, init_search (n - 1) (h - 1) (trim_matrix iso) (trim_matrix p) (trim_matrix g))
          else Some (n, h, init_search n h iso p g)
      | _, _ => None
      end
  end.
