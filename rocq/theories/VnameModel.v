(* Vector names: parsing, printing, merging and extracting vectors (src/bin/fl/voss_strings.c).

   A name is a list of characters, its parsed form a vec of IlistModel.v.  A C int is a Z:
   overflow, and the conversion of numerals that do not fit an int, are not modelled.
   Outcome None stands for a dereference of NULL or the use of a text as a list of ranges. *)
From Coq Require Import ZArith List Bool Ascii String Lia.
From Verif Require Import IlistModel.
Import ListNotations.
Open Scope Z_scope.
Open Scope list_scope.

Local Notation length := List.length.
Definition chars := list ascii.

(* --- numerals ------------------------------------------------------------------ *)

Definition digit (c : ascii) : bool :=
  (48 <=? Z.of_nat (nat_of_ascii c)) && (Z.of_nat (nat_of_ascii c) <=? 57).

Definition digit_val (c : ascii) : Z := Z.of_nat (nat_of_ascii c) - 48.
Definition digit_char (d : Z) : ascii := ascii_of_nat (Z.to_nat (d + 48)).

Fixpoint skip_digits (s : chars) : chars :=
  match s with c :: r => if digit c then skip_digits r else s | [] => [] end.

(* %d of sscanf, at a place where is_valid_index_or_range has seen a numeral: the value and
   the characters that follow. *)
Fixpoint read_digits (acc : Z) (s : chars) : Z * chars :=
  match s with
  | c :: r => if digit c then read_digits (acc * 10 + digit_val c) r else (acc, s)
  | [] => (acc, [])
  end.

Definition read_int (s : chars) : Z * chars :=
  match s with
  | "-"%char :: r => let (n, t) := read_digits 0 r in (- n, t)
  | _ => read_digits 0 s
  end.

(* %d of sprintf. *)
Fixpoint show_digits (fuel : nat) (n : Z) (acc : chars) : chars :=
  match fuel with
  | O => acc
  | S k =>
      let acc' := digit_char (n mod 10) :: acc in
      if n <? 10 then acc' else show_digits k (n / 10) acc'
  end.

Definition show_nat (n : Z) : chars := show_digits (S (Z.to_nat (Z.log2 n))) n [].
Definition show_int (z : Z) : chars :=
  if z <? 0 then "-"%char :: show_nat (- z) else show_nat z.

(* --- parsing ------------------------------------------------------------------- *)

(* is_valid_index_or_range (voss_strings.c 1602-1632). *)
Definition valid_num (s : chars) : option chars :=
  let s1 := match s with "-"%char :: r => r | _ => s end in
  match s1 with
  | c :: _ => if digit c then Some (skip_digits s1) else None
  | [] => None
  end.

Fixpoint valid_index_f (fuel : nat) (s : chars) : bool :=
  match fuel with
  | O => false
  | S k =>
      match valid_num s with
      | None => false
      | Some s2 =>
          match (match s2 with ":"%char :: r => valid_num r | _ => Some s2 end) with
          | Some ("]"%char :: _) => true
          | Some (","%char :: r) => valid_index_f k r
          | _ => false
          end
      end
  end.

Definition valid_index (s : chars) : bool := valid_index_f (S (length s)) s.

(* merge_indices (voss_strings.c 1574-1600). *)
Fixpoint merge_from (tail : Z * Z) (rs : list (Z * Z)) : list (Z * Z) :=
  match rs with
  | [] => [tail]
  | cur :: r =>
      let (tu, tl) := tail in
      let (cu, cl) := cur in
      if (tu >=? tl) && (cu >=? cl) && (tl - 1 =? cu) then merge_from (tu, cl) r
      else if (tu <=? tl) && (cu <=? cl) && (tl + 1 =? cu) then merge_from (tu, cl) r
      else tail :: merge_from cur r
  end.

Definition merge_indices (rs : list (Z * Z)) : option (list (Z * Z)) :=
  match rs with [] => None | r :: rest => Some (merge_from r rest) end.

(* The inner loop of Split_vector_name (voss_strings.c 143-164) over the text before ']'. *)
Fixpoint after_comma (s : chars) : chars :=
  match s with
  | [] => []
  | c :: r => if Ascii.eqb c ","%char then r else after_comma r
  end.

Fixpoint read_ranges (fuel : nat) (s : chars) : list (Z * Z) :=
  match fuel, s with
  | S k, _ :: _ =>
      let (u, t) := read_int s in
      let l := match t with ":"%char :: t' => fst (read_int t') | _ => u end in
      (u, l) :: read_ranges k (after_comma s)
  | _, _ => []
  end.

Fixpoint before_bracket (s : chars) : chars * chars :=
  match s with
  | [] => ([], [])
  | c :: r => if Ascii.eqb c "]"%char then ([], s)
              else let (a, b) := before_bracket r in (c :: a, b)
  end.

(* The text branch (voss_strings.c 194-215): up to and including a '[' before an index. *)
Fixpoint scan_text (s : chars) : chars * chars :=
  match s with
  | [] => ([], [])
  | c :: r =>
      if Ascii.eqb c "["%char
         && match r with [] => true | _ => valid_index r end
      then ([c], r)
      else let (a, b) := scan_text r in (c :: a, b)
  end.

(* The escaped branch (voss_strings.c 177-193): up to and including a space. *)
Fixpoint scan_escaped (s : chars) : option (chars * chars) :=
  match s with
  | [] => None
  | c :: r =>
      if Ascii.eqb c " "%char then Some ([c], r)
      else match scan_escaped r with Some (a, b) => Some (c :: a, b) | None => None end
  end.

Definition text (s : chars) : string := string_of_list_ascii s.

(* Split_vector_name (voss_strings.c 127-224); None is the jump to illegal_format. *)
Fixpoint split_f (fuel : nat) (s : chars) : option vec :=
  match fuel, s with
  | S k, c :: r =>
      if valid_index s then
        let (a, b) := before_bracket s in
        match merge_indices (read_ranges (S (length a)) a), split_f k b with
        | Some rs, Some v => Some (Idx rs :: v)
        | _, _ => None
        end
      else if Ascii.eqb c "\"%char then
        match scan_escaped r with
        | None => None
        | Some (a, b) =>
            match split_f k b with
            | Some v => Some (Txt (text (c :: a)) :: v)
            | None => None
            end
        end
      else
        let (a, b) := scan_text s in
        match split_f k b with
        | Some v => Some (Txt (text a) :: v)
        | None => None
        end
  | _, _ => Some []
  end.

Definition split_name (s : chars) : vec :=
  match split_f (length s) s with Some v => v | None => [Txt (text s)] end.

(* --- printing -------------------------------------------------------------------- *)

(* SPRINT_RANGE and show_non_contig_vector (voss_strings.c 2093-2119). *)
Definition show_range (p : Z * Z) : chars :=
  if fst p =? snd p then show_int (fst p)
  else show_int (fst p) ++ ":"%char :: show_int (snd p).

Fixpoint show_ranges (rs : list (Z * Z)) : chars :=
  match rs with
  | [] => []
  | [p] => show_range p
  | p :: r => show_range p ++ ","%char :: show_ranges r
  end.

Fixpoint show_vec (v : vec) : chars :=
  match v with
  | [] => []
  | Txt n :: r => list_ascii_of_string n ++ show_vec r
  | Idx rs :: r => show_ranges rs ++ show_vec r
  end.

(* show_contig_vector (voss_strings.c 2140-2166), giving the vectors that it prints. *)
Fixpoint contig (v : vec) : list vec :=
  match v with
  | [] => [[]]
  | Txt n :: r => map (cons (Txt n)) (contig r)
  | Idx rs :: r => flat_map (fun p => map (cons (Idx [p])) (contig r)) rs
  end.

(* Get_vector_signature (voss_strings.c 226-240). *)
Fixpoint signature (v : vec) : chars :=
  match v with
  | [] => []
  | Txt n :: r => list_ascii_of_string n ++ signature r
  | Idx _ :: r => "*"%char :: signature r
  end.

(* --- ranges ------------------------------------------------------------------------ *)

(* make_range_canonical (voss_strings.c 1635-1670). *)
Fixpoint canonical_f (fuel : nat) (rs : list (Z * Z)) : list (Z * Z) :=
  match fuel, rs with
  | S k, (u0, l0) :: rest =>
      if (match rest with [] => true | _ => false end) && (u0 =? -1) && (l0 =? 0) then rs
      else
        let (u, l) := if u0 <? l0 then (l0, u0) else (u0, l0) in
        match canonical_f k rest with
        | [] => [(u, l)]
        | (ru, rl) :: more =>
            if l >? ru then (u, l) :: (ru, rl) :: more
            else if u <=? ru then
              if l >=? rl then (ru, rl) :: more
              else canonical_f k ((ru, l) :: more)
            else if rl >? l then canonical_f k ((u, l) :: more)
            else (u, rl) :: more
        end
  | _, _ => rs
  end.

Definition canonical (rs : list (Z * Z)) : list (Z * Z) := canonical_f (length rs) rs.

(* compress_ranges (voss_strings.c 1683-1711). *)
Fixpoint compress_f (fuel : nat) (a b : list (Z * Z)) : list (Z * Z) :=
  match fuel, a, b with
  | _, [], _ => b
  | _, _, [] => a
  | O, _, _ => a
  | S k, (ua, la) :: ra, (ub, lb) :: rb =>
      let '((u1, l1), n1, (u2, l2), n2) :=
        if ua <? ub then ((ub, lb), rb, (ua, la), ra) else ((ua, la), ra, (ub, lb), rb) in
      if l1 >? u2 + 1 then (u1, l1) :: compress_f k n1 ((u2, l2) :: n2)
      else if l1 <=? l2 then compress_f k ((u1, l1) :: n1) n2
      else
        let r1 :=
          match n1 with
          | (nu, nl) :: nr => if l2 =? nu + 1 then (u1, nl) :: nr else (u1, l2) :: n1
          | [] => [(u1, l2)]
          end in
        compress_f k r1 n2
  end.

Definition compress_ranges (a b : list (Z * Z)) : list (Z * Z) :=
  compress_f (length a + length b) a b.

(* Check_range_overlap, Check_vector_overlap (voss_strings.c 424-463). *)
Fixpoint range_overlap (a b : list (Z * Z)) : bool :=
  match a, b with
  | (u1, l1) :: r1, (u2, l2) :: r2 =>
      if (l1 <=? u2) && (l2 <=? u1) then range_overlap r1 r2 else false
  | _, _ => true
  end.

Fixpoint vector_overlap (a b : vec) : bool :=
  match a, b with
  | Txt n :: r1, Txt m :: r2 => if String.eqb n m then vector_overlap r1 r2 else false
  | Idx x :: r1, Idx y :: r2 => if range_overlap x y then vector_overlap r1 r2 else false
  | _ :: _, _ :: _ => false
  | _, _ => true
  end.

(* --- merging ------------------------------------------------------------------------- *)

(* is_const (voss_strings.c 1826-1831). *)
Definition is_const (v : vec) : bool :=
  match v with Txt (String "0" (String "b" _)) :: _ => true | _ => false end.

(* The search for the first index with different ranges and the check of the rest, in
   gen_merge_vectors and gen_extract_vectors: what the two vectors have in common. *)
Inductive common := Same | Differ (pre : vec) (r1 r2 : list (Z * Z)) (post : vec) | Unlike.

Fixpoint same_rest (a b : vec) : option bool :=
  match a, b with
  | [], _ => Some true
  | Txt _ :: a', _ :: b' => same_rest a' b'
  | Idx x :: a', Idx y :: b' => if list_eqb x y then same_rest a' b' else Some false
  | _, _ => None
  end.

Fixpoint compare (a b : vec) : option common :=
  match a, b with
  | [], _ => Some Same
  | Txt n :: a', _ :: b' =>
      match compare a' b' with
      | Some (Differ p x y q) => Some (Differ (Txt n :: p) x y q)
      | o => o
      end
  | Idx x :: a', Idx y :: b' =>
      if list_eqb x y then
        match compare a' b' with
        | Some (Differ p u v q) => Some (Differ (Idx x :: p) u v q)
        | o => o
        end
      else
        match same_rest a' b' with
        | Some true => Some (Differ [] x y a')
        | Some false => Some Unlike
        | None => None
        end
  | _, _ => None
  end.

(* The ranges of two vectors that gen_merge_vectors joins; true if a range was extended. *)
Fixpoint join_ranges (a b : list (Z * Z)) : bool * list (Z * Z) :=
  match a with
  | [] => (false, b)
  | [(u1, l1)] =>
      match b with
      | (u2, l2) :: r =>
          if (u1 >=? l1) && (u2 >=? l2) && (l1 - 1 =? u2) then (true, (u1, l2) :: r)
          else if (u1 <=? l1) && (u2 <=? l2) && (l1 + 1 =? u2) then (true, (u1, l2) :: r)
          else (false, (u1, l1) :: b)
      | [] => (false, a)
      end
  | p :: a' => let (e, r) := join_ranges a' b in (e, p :: r)
  end.

(* The circular list from mp0, with the place of mp: before (reversed), mp, after. *)
Definition zipper := (list vec * vec * list vec)%type.
Definition unzip (z : zipper) : list vec :=
  let '(a, c, b) := z in rev a ++ c :: b.

(* mp->next == mp0: back to the start. *)
Definition wrap (z : zipper) : zipper :=
  match z with
  | (a, c, []) => match rev a ++ [c] with h :: t => ([], h, t) | [] => z end
  | _ => z
  end.

Definition join_const (a b : vec) : vec :=
  match a, b with
  | Txt x :: r, Txt (String _ (String _ y)) :: _ => Txt (x ++ y)%string :: r
  | _, _ => a
  end.

Definition sig_eqb (a b : vec) : bool :=
  if list_eq_dec ascii_dec (signature a) (signature b) then true else false.

Record mstate := MS { m_z : zipper; m_nc : nat; m_alts : nat }.

(* One turn of the loop of gen_merge_vectors (voss_strings.c 1943-2043). *)
Definition merge_step (s : mstate) : option mstate :=
  let '(a, c, b) := wrap (m_z s) in
  match b with
  | [] =>
      (* one vector only: it is its own successor *)
      if is_const c then Some (MS (a, join_const c c, b) 0 (m_alts s - 1))
      else Some (MS (a, c, b) (S (m_nc s)) (m_alts s))
  | d :: b' =>
      let move := Some (MS (c :: a, d, b') (S (m_nc s)) (m_alts s)) in
      if is_const c && is_const d then Some (MS (a, join_const c d, b') 0 (m_alts s - 1))
      else if sig_eqb c d then
        match compare c d with
        | None => None
        | Some Same | Some Unlike => move
        | Some (Differ p [] y q) => None
        | Some (Differ p x [] q) => None
        | Some (Differ p x y q) =>
            let (extended, r) := join_ranges x y in
            Some (MS (a, p ++ Idx r :: q, b') 0
                     (if extended then m_alts s - 1 else m_alts s))
        end
      else move
  end%nat.

Fixpoint merge_loop (fuel : nat) (s : mstate) : option (list vec) :=
  match fuel with
  | O => None
  | S k =>
      if (1 <? m_alts s)%nat && (m_nc s <? m_alts s)%nat then
        match merge_step s with Some s' => merge_loop k s' | None => None end
      else Some (unzip (m_z s))
  end.

(* gen_merge_vectors: a bound on the number of turns is proved sufficient. *)
Definition merge_vectors (l : list vec) : option (list vec) :=
  match l with
  | [] => Some []
  | h :: t => merge_loop (S (length l * S (length l) + length l)) (MS ([], h, t) 0 (length l))
  end.

(* One turn of the loop of gen_extract_vectors (voss_strings.c 1863-1925).  The head of the
   list is mp; after the loop mp is where the result starts. *)
Record estate := ES { e_l : list vec; e_nc : nat }.

Definition extract_step (s : estate) : option estate :=
  match e_l s with
  | c :: d :: b =>
      let move := Some (ES (d :: b ++ [c]) (S (e_nc s))) in
      if negb (sig_eqb c d) || is_const c then move
      else
        match compare c d with
        | None => None
        | Some Same => Some (ES (c :: b) 0)
        | Some Unlike => move
        | Some (Differ p x y q) => Some (ES ((p ++ Idx (compress_ranges x y) :: q) :: b) 0)
        end
  | _ => Some s
  end.

Fixpoint extract_loop (fuel : nat) (s : estate) : option (list vec) :=
  match fuel with
  | O => None
  | S k =>
      if (1 <? length (e_l s))%nat && (e_nc s <=? length (e_l s))%nat then
        match extract_step s with Some s' => extract_loop k s' | None => None end
      else Some (e_l s)
  end.

(* gen_extract_vectors on the list that qsort gives. *)
Definition extract_sorted (l : list vec) : option (list vec) :=
  extract_loop (length l * S (S (length l)) + S (S (length l))) (ES l 0).

(* make_vector_ranges_canonical (voss_strings.c 1672-1681). *)
Definition canonical_vec (v : vec) : vec :=
  map (fun e => match e with Txt n => Txt n | Idx rs => Idx (canonical rs) end) v.

(* expand_constant, Vec2nodes (voss_strings.c 244-306): the scalars of a name. *)
Fixpoint const_bits (s : string) : option (list vec) :=
  match s with
  | EmptyString => Some []
  | String c r =>
      if Ascii.eqb c "0"%char || Ascii.eqb c "1"%char || Ascii.eqb c "x"%char then
        match const_bits r with
        | Some l => Some ([Txt (String "0" (String "b" (String c EmptyString)))] :: l)
        | None => None
        end
      else None
  end.

Definition scalars (v : vec) : list vec :=
  match v with
  | [Txt (String "0" (String "b" s))] =>
      match const_bits s with
      | Some (b :: l) => b :: l
      | _ => expand_vector v
      end
  | _ => expand_vector v
  end.
