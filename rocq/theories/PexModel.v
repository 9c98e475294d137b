(* Folding and unfolding of instances in a design (src/bin/fl/pexlif.c), on vector names
   (src/bin/fl/voss_strings.c, see VnameModel.v).

   A design (a pexlif) is a tree.  The functions of a leaf are of any type F, as the two
   operations do not look at them.  An attribute is a pair of names.  Simplifications: lists
   are Coq lists; reference counts, record managers and string operations' memory are not
   modelled; the SHA and fingerprint attributes that mk_pinst adds to the result in the fl
   wrapper are not modelled; ints are Z. *)
From Coq Require Import ZArith List Bool Ascii String.
From Verif Require Import IlistModel VnameModel.
Import ListNotations.
Open Scope list_scope.

(* Fail: Fail_pr and a NULL result.  Undef: a dereference of NULL, DIE, or a loop that has not
   ended in the given number of turns. *)
Inductive out (A : Type) := Ok (a : A) | Fail | Undef.
Arguments Ok {A}. Arguments Fail {A}. Arguments Undef {A}.

Notation "'do' x <- e ; f" := (match e with Ok x => f | Fail => Fail | Undef => Undef end)
  (at level 200, x pattern, e at level 100, f at level 200).

(* A formal with its actuals. *)
Definition fa := (chars * list chars)%type.

(* The parts of a PINST other than its content. *)
Record head := Head {
  h_name : chars; h_attrs : list (chars * chars); h_leaf : bool;
  h_inps : list fa; h_outs : list fa; h_ints : list chars }.

Section Pex.
Context {F : Type}.

(* PINST with content P_LEAF and P_HIER. *)
Inductive pex := Leaf (h : head) (f : F) | Hier (h : head) (l : list pex).

Definition head_of (p : pex) : head := match p with Leaf h _ | Hier h _ => h end.
Definition set_head (p : pex) (h : head) : pex :=
  match p with Leaf _ f => Leaf h f | Hier _ l => Hier h l end.

(* --- names ------------------------------------------------------------------------ *)

(* expand_constant (voss_strings.c 243-274). *)
Definition expand_constant (s : chars) : option (list vec) :=
  match s with
  | "0"%char :: "b"%char :: r => const_bits (text r)
  | _ => None
  end.

(* Get_expanded_version (voss_strings.c 301-313). *)
Definition expand (s : chars) : list chars :=
  match expand_constant s with
  | Some (b :: l) => map show_vec (b :: l)
  | _ => map show_vec (expand_vector (split_name s))
  end.

(* Merge_Vectors with non_contig_vecs FALSE, merge_vectors_fl (voss_strings.c 407-413,
   2055-2070). *)
Definition merge_names (l : list chars) : out (list chars) :=
  match merge_vectors (map split_name l) with
  | Some v => Ok (map show_vec (flat_map contig v))
  | None => Undef
  end.

(* Extract_Vectors with non_contig_vecs TRUE, extract_vectors_fl (voss_strings.c 415-421,
   2073-2090).  srt is the qsort in gen_extract_vectors. *)
Definition extract_names (srt : list vec -> list vec) (l : list chars) : out (list chars) :=
  match extract_sorted (srt (map canonical_vec (map split_name l))) with
  | Some v => Ok (map show_vec v)
  | None => Undef
  end.

(* get_base_name (voss_strings.c 1733-1747). *)
Fixpoint cut (s : chars) : chars :=
  match s with
  | [] => []
  | c :: r => if Ascii.eqb c "["%char then [] else c :: cut r
  end.
Definition base_name (v : vec) : out chars :=
  match v with
  | [] => Undef
  | Txt n :: _ => Ok (cut (list_ascii_of_string n))
  | Idx _ :: _ => Ok []
  end.

(* VDB_Insert_vector and VDB_has_name_collision with basename_only TRUE (voss_strings.c
   2237-2251, 2295-2304): the database is the list of the keys. *)
Definition vdb_insert (db : list chars) (s : chars) : out (list chars) :=
  do b <- base_name (split_name s); Ok (b :: db).

Definition chars_eqb (a b : chars) : bool := if list_eq_dec ascii_dec a b then true else false.
Definition mem (a : chars) (l : list chars) : bool := existsb (chars_eqb a) l.

Definition vdb_collides (db : list chars) (s : chars) : out bool :=
  do b <- base_name (split_name s); Ok (mem b db).

Fixpoint vdb_inserts (db : list chars) (l : list chars) : out (list chars) :=
  match l with
  | [] => Ok db
  | s :: l => do db <- vdb_insert db s; vdb_inserts db l
  end.

(* --- substitutions ---------------------------------------------------------------- *)

(* The hash table of names: newest entry first (see C32). *)
Definition tbl := list (chars * chars).
Fixpoint find (t : tbl) (k : chars) : option chars :=
  match t with
  | [] => None
  | (k', v) :: t => if chars_eqb k k' then Some v else find t k
  end.

(* The loop over the scalars of one actual (pexlif.c 2591-2601). *)
Fixpoint walk (fv av : list chars) (t : tbl) : out (list chars * tbl) :=
  match av with
  | [] => Ok (fv, t)
  | a :: av => match fv with [] => Fail | f :: fv => walk fv av ((f, a) :: t) end
  end.
Fixpoint walks (fv : list chars) (acts : list chars) (t : tbl) : out (list chars * tbl) :=
  match acts with
  | [] => Ok (fv, t)
  | a :: acts => do (fv, t) <- walk fv (expand a) t; walks fv acts t
  end.

(* mk_formal_actuals_substitution (pexlif.c 2573-2610). *)
Fixpoint mk_subst (t : tbl) (l : list fa) : out tbl :=
  match l with
  | [] => Ok t
  | (f, acts) :: l =>
      match acts with
      | [] => Undef
      | a :: rest =>
          let t := match rest with [] => (f, a) :: t | _ => t end in
          do (fv, t) <- walks (expand f) acts t;
          match fv with [] => mk_subst t l | _ => Fail end
      end
  end.

(* subst_formal (pexlif.c 2612-2646).  Here constants are not expanded. *)
Definition subst_formal (t : tbl) (f : chars) : list chars :=
  match find t f with
  | Some a => [a]
  | None =>
      map (fun s => match find t s with Some a => a | None => s end)
          (map show_vec (flat_map contig (expand_vector (split_name f))))
  end.

(* subst_fa_list (pexlif.c 2648-2671). *)
Fixpoint subst_fas (t : tbl) (l : list fa) : out (list fa) :=
  match l with
  | [] => Ok []
  | (f, acts) :: l =>
      do m <- merge_names (flat_map (subst_formal t) acts);
      do r <- subst_fas t l;
      Ok ((f, m) :: r)
  end.

(* --- unfolding -------------------------------------------------------------------- *)

(* %d of sscanf. *)
Definition is_space (c : ascii) : bool :=
  let n := nat_of_ascii c in ((9 <=? n) && (n <=? 13))%nat || (n =? 32)%nat.
Fixpoint skip_space (s : chars) : chars :=
  match s with c :: r => if is_space c then skip_space r else s | [] => [] end.
Definition scan_d (s : chars) : option Z :=
  let num (s : chars) := match s with c :: _ => if digit c then Some (fst (read_digits 0 s)) else None | [] => None end in
  match skip_space s with
  | "-"%char :: r => option_map Z.opp (num r)
  | "+"%char :: r => num r
  | s => num s
  end.

(* The new name in the loop of unfold_pexlif (pexlif.c 1553-1561). *)
Definition next_name (old new : chars) : chars :=
  let first := list_ascii_of_string "_$1_" ++ old in
  match new with
  | "_"%char :: "$"%char :: r =>
      match scan_d r with
      | Some cnt => "_"%char :: "$"%char :: show_int (cnt + 1) ++ skip_digits r
      | None => first
      end
  | _ => first
  end.

Fixpoint fresh (gas : nat) (db : list chars) (old new : chars) : out chars :=
  match gas with
  | O => Undef
  | S gas =>
      do c <- vdb_collides db new;
      if c then fresh gas db old (next_name old new) else Ok new
  end.

(* The loop over the internals (pexlif.c 1549-1572): the database, old_inter and inter_sub. *)
Fixpoint internals (l : list chars) (db ints : list chars) (sub : list fa)
  : out (list chars * list fa) :=
  match l with
  | [] => Ok (ints, sub)
  | old :: l =>
      do new <- fresh (S (S (List.length db))) db old old;
      do db <- vdb_insert db new;
      internals l db (new :: ints) ((old, [new]) :: sub)
  end.

(* The loop over the grandchildren (pexlif.c 1580-1598). *)
Fixpoint grandchildren (t : tbl) (attrs : list (chars * chars)) (l : list pex) : out (list pex) :=
  match l with
  | [] => Ok []
  | g :: l =>
      let h := head_of g in
      do i <- subst_fas t (h_inps h);
      do o <- subst_fas t (h_outs h);
      do r <- grandchildren t attrs l;
      Ok (set_head g (Head (h_name h) (h_attrs h ++ attrs) (h_leaf h) i o (h_ints h)) :: r)
  end.

(* unfold_pexlif (pexlif.c 1465-1613).  Children are numbered from 1. *)
Definition unfold (srt : list vec -> list vec) (p : pex) (id : nat) : out pex :=
  match p with
  | Leaf _ _ => Fail
  | Hier h l =>
      do db <- vdb_inserts [] (map fst (h_inps h));
      do db <- vdb_inserts db (map fst (h_outs h));
      do db <- vdb_inserts db (h_ints h);
      match id with
      | O => Fail
      | S k =>
          match nth_error l k with
          | None => Fail
          | Some (Leaf _ _) => Ok p
          | Some (Hier hu lu) =>
              let others := firstn k l ++ skipn (S k) l in
              do t <- mk_subst [] (h_inps hu);
              do t <- mk_subst t (h_outs hu);
              do (ints, sub) <- internals (h_ints hu) db (h_ints h) [];
              do t <- mk_subst t sub;
              do gs <- grandchildren t (h_attrs hu) lu;
              do ints <- extract_names srt ints;
              Ok (Hier (Head (h_name h) (h_attrs h) (h_leaf h) (h_inps h) (h_outs h) ints)
                       (others ++ gs))
          end
      end
  end.

(* --- folding ---------------------------------------------------------------------- *)

(* adj_key_rec and adj_bkt_rec: index of the instance, direction, name. *)
Record use := Use { u_index : nat; u_input : bool; u_name : chars }.

(* mk_adj_tables (pexlif.c 2482-2539).  The environment counts as instance 0. *)
Definition child_uses (i : nat) (h : head) : list use :=
  map (Use i true) (flat_map snd (h_inps h)) ++ map (Use i false) (flat_map snd (h_outs h)).
Definition root_uses (h : head) : list use :=
  map (Use 0 false) (map fst (h_inps h)) ++ map (Use 0 true) (map fst (h_outs h)).
Fixpoint children_uses (i : nat) (l : list pex) : list use :=
  match l with
  | [] => []
  | c :: l => child_uses i (head_of c) ++ children_uses (S i) l
  end.

(* The chain of adj_bkt_recs with the signature of u in the table of the other direction,
   as far as they overlap (pexlif.c 1299-1318). *)
Definition meets (u w : use) : bool :=
  negb (Bool.eqb (u_input u) (u_input w))
  && chars_eqb (signature (split_name (u_name u))) (signature (split_name (u_name w)))
  && vector_overlap (split_name (u_name u)) (split_name (u_name w)).

(* insert_check_hash *)
Definition add_new (s : chars) (l : list chars) : list chars := if mem s l then l else l ++ [s].

(* The sets inps_set, outs_set, ints_set. *)
Record sets := Sets { f_inps : list chars; f_outs : list chars; f_ints : list chars }.

Definition is_id (ids : list nat) (i : nat) : bool := existsb (Nat.eqb i) ids.

Definition note (ids : list nat) (u w : use) (s : sets) : sets :=
  if is_id ids (u_index w) then Sets (f_inps s) (f_outs s) (add_new (u_name u) (f_ints s))
  else if u_input u then Sets (add_new (u_name u) (f_inps s)) (f_outs s) (f_ints s)
  else Sets (f_inps s) (add_new (u_name u) (f_outs s)) (f_ints s).


Fixpoint select (b : bool) (ids : list nat) (i : nat) (l : list pex) : list pex :=
  match l with
  | [] => []
  | c :: l => (if Bool.eqb (is_id ids i) b then [c] else []) ++ select b ids (S i) l
  end.

(* fold_pexlif (pexlif.c 1264-1391).  scan is the order in which SCAN_HASH goes through a
   set.  The loop starts behind the root: an id of 0 is counted in ids_set only.  Undef is
   the DIE of mk_adj_tables on a leaf. *)
Definition fold (scan : list chars -> list chars) (p : pex) (ids : list nat) (name : chars) : out pex :=
  match p with
  | Leaf _ _ => Undef
  | Hier h l =>
      let us := root_uses h ++ children_uses 1 l in
      let s := fold_left (fun s u => fold_left (fun s w => note ids u w s) (filter (meets u) us) s)
                 (filter (fun u => is_id ids (u_index u)) (children_uses 1 l)) (Sets [] [] []) in
      let same (a : chars) : fa := (a, [a]) in
      let part := Hier (Head name [] (h_leaf h) (map same (scan (f_inps s))) (map same (scan (f_outs s)))
                         (filter (fun a => negb (mem a (f_inps s)) && negb (mem a (f_outs s))) (scan (f_ints s))))
                    (select true ids 1 l) in
      Ok (Hier (Head (h_name h) [] (h_leaf h) (h_inps h) (h_outs h)
                 (filter (fun a => negb (mem a (f_ints s))) (h_ints h)))
            (part :: select false ids 1 l))
  end.
End Pex.
Arguments pex F : clear implicits.
