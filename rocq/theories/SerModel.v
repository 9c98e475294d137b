(* Saving and loading of graphs: src/bin/fl/serialize.c and Save_graph, Load_graph,
   can_be_saved of src/bin/fl/io.c.

   Simplifications.  A node address is a positive number (no NULL children).  A leaf holding a
   text holds the text itself (fl strings are interned, so equal texts are equal pointers).  An
   integer is its value and its text is the decimal text (Arbi_ToString and Arbi_FromString are
   treated in ArbStr.v).  The tables of formulas and bexprs are lists of handles: their files
   (Save_BDDs, Load_BDDs, Save_bexprs, Load_bexprs) are treated in BddSave.v and are here only
   the list of handles saved and the list of handles loaded.  Of the classes of external objects
   only bv and "a class without save function" are present.  The tar archive is the record of
   its five members.  An int never overflows.  The depth of recursion is bounded by fuel; running
   out of fuel, DIE, a failing ASSERT and the longjmp of Rprintf are all None. *)
From Coq Require Import ZArith List Ascii Bool.
Import ListNotations.
Open Scope Z_scope.

Definition chars := list ascii.
Definition ptr := positive.

(* ---- the graph ---- *)
(* Leaves that carry a text: STRING, VAR and the primitives P_FAIL, P_DEBUG, P_SSCANF, P_PRINTF,
   P_FPRINTF, P_SPRINTF, P_EPRINTF. *)
Inductive tkind := KString | KVar | KFail | KDebug | KSscanf | KPrintf | KFprintf | KSprintf | KEprintf.

Inductive node :=
| NApp (l r : ptr)
| NNil
| NCons (h t : ptr)
| NInt (z : Z)
| NText (k : tkind) (s : chars)
| NBool (f : Z)
| NBexpr (e : Z)
| NBv (fs : list Z)          (* external object of class bv *)
| NObj (class : Z)           (* external object of a class without save function *)
| NFile (name : chars)       (* P_FILEFP, the name of its stream *)
| NRef (r : Z)               (* P_REF_VAR, the number of the reference variable *)
| NCache (c : Z)             (* P_CACHE *)
| NExtapi (f : Z)            (* P_EXTAPI_FN *)
| NPrim (f : Z).             (* any other primitive *)

(* ---- printing and scanning of numbers ---- *)
Definition chr (n : Z) : ascii := ascii_of_nat (Z.to_nat n).
Definition ord (c : ascii) : Z := Z.of_nat (nat_of_ascii c).

Definition digit_chr (d : Z) : ascii := if d <? 10 then chr (48 + d) else chr (87 + d).
Definition digit_of (b : Z) (c : ascii) : option Z :=
  let n := ord c in
  let d := if (48 <=? n) && (n <=? 57) then n - 48
           else if (97 <=? n) && (n <=? 102) then n - 87
           else if (65 <=? n) && (n <=? 70) then n - 55 else b in
  if d <? b then Some d else None.

Fixpoint show_base (fuel : nat) (b n : Z) (acc : chars) : chars :=
  match fuel with
  | O => acc
  | S f => if n <? b then digit_chr n :: acc
           else show_base f b (n / b) (digit_chr (n mod b) :: acc)
  end.
Definition show_num (b n : Z) : chars := show_base (S (Z.to_nat (Z.log2 n))) b n [].

Fixpoint read_base (b acc : Z) (s : chars) : Z * chars :=
  match s with
  | c :: r => match digit_of b c with Some d => read_base b (acc * b + d) r | None => (acc, s) end
  | [] => (acc, [])
  end.
Definition scan_num (b : Z) (s : chars) : option (Z * chars) :=
  match s with
  | c :: _ => match digit_of b c with Some _ => Some (read_base b 0 s) | None => None end
  | [] => None
  end.

Definition nl : ascii := "010"%char.
Definition is_space (c : ascii) : bool := ((9 <=? ord c) && (ord c <=? 13)) || (ord c =? 32).
Fixpoint skip_ws (s : chars) : chars :=
  match s with c :: r => if is_space c then skip_ws r else s | [] => [] end.

(* printf("%d"), scanf("%d"): white space, a sign, digits. *)
Definition show_int (z : Z) : chars :=
  if z <? 0 then "-"%char :: show_num 10 (- z) else show_num 10 z.
Definition scan_int (s : chars) : option (Z * chars) :=
  match skip_ws s with
  | "-"%char :: r => match scan_num 10 r with Some (z, r') => Some (- z, r') | None => None end
  | "+"%char :: r => scan_num 10 r
  | r => scan_num 10 r
  end.

(* printf("%p"), scanf("%p"). *)
Definition show_ptr (p : ptr) : chars := "0"%char :: "x"%char :: show_num 16 (Zpos p).
Definition scan_ptr (s : chars) : option (Z * chars) :=
  match skip_ws s with
  | "0"%char :: "x"%char :: r => scan_num 16 r
  | r => scan_num 16 r
  end.

(* serialize.c 136-159 write_pointer, read_pointer; 199-215 write_int, read_int.  The "\n" at the
   end of the format of fscanf passes over any amount of white space. *)
Definition put_ptr (p : ptr) : chars := show_ptr p ++ [nl].
Definition put_int (z : Z) : chars := show_int z ++ [nl].
Definition get_ptr (s : chars) : option (Z * chars) :=
  match scan_ptr s with Some (z, r) => Some (z, skip_ws r) | None => None end.
Definition get_int (s : chars) : option (Z * chars) :=
  match scan_int s with Some (z, r) => Some (z, skip_ws r) | None => None end.

(* serialize.c 251-266 write_uchar, read_uchar: "%c\n". *)
Definition put_uchar (c : ascii) : chars := [c; nl].
Definition get_uchar (s : chars) : option (ascii * chars) :=
  match s with c :: r => Some (c, skip_ws r) | [] => None end.

(* ---- the tables of strings, formulas and bexprs ---- *)
(* uniq_buf.c 69-88 find_insert_uniq_buf: the index of an item, added at the end when new. *)
Fixpoint index_of {A} (eqb : A -> A -> bool) (x : A) (l : list A) : option nat :=
  match l with
  | [] => None
  | y :: r => if eqb x y then Some O else option_map S (index_of eqb x r)
  end.
Definition find_insert {A} (eqb : A -> A -> bool) (x : A) (l : list A) : nat * list A :=
  match index_of eqb x l with Some i => (i, l) | None => (length l, l ++ [x]) end.

Fixpoint chars_eqb (a b : chars) : bool :=
  match a, b with
  | [], [] => true
  | x :: a', y :: b' => Ascii.eqb x y && chars_eqb a' b'
  | _, _ => false
  end.

(* An entry of the string table: (true, s) is the interned string s, (false, s) a text made by
   Arbi_ToString, which is at an address of its own and so never equal to another entry. *)
Definition entry := (bool * chars)%type.
Definition entry_eqb (a b : entry) : bool := fst a && fst b && chars_eqb (snd a) (snd b).

Record wstate := mk_w { w_seen : list ptr; w_strs : list entry; w_bools : list Z; w_bexprs : list Z }.

(* io.c 942-958 Save_get_string_idx, Save_get_bool_idx, Save_get_bexpr_idx with the fprintf of the
   index (serialize.c 161-168, 268-274, 286-292, 321-327). *)
Definition put_string (s : chars) (w : wstate) : chars * wstate :=
  let '(i, l) := find_insert entry_eqb (true, s) (w_strs w) in
  (put_int (Z.of_nat i), mk_w (w_seen w) l (w_bools w) (w_bexprs w)).
Definition put_arbi (z : Z) (w : wstate) : chars * wstate :=
  let '(i, l) := find_insert entry_eqb (false, show_int z) (w_strs w) in
  (put_int (Z.of_nat i), mk_w (w_seen w) l (w_bools w) (w_bexprs w)).
Definition bool_idx (f : Z) (w : wstate) : nat * wstate :=
  let '(i, l) := find_insert Z.eqb f (w_bools w) in
  (i, mk_w (w_seen w) (w_strs w) l (w_bexprs w)).
Definition put_formula (f : Z) (w : wstate) : chars * wstate :=
  let '(i, w1) := bool_idx f w in (put_int (Z.of_nat i), w1).
Definition put_bexpr (e : Z) (w : wstate) : chars * wstate :=
  let '(i, l) := find_insert Z.eqb e (w_bexprs w) in
  (put_int (Z.of_nat i), mk_w (w_seen w) (w_strs w) (w_bools w) l).

(* ---- tags: serialize.c 511-531 ---- *)
Definition text_tag (k : tkind) : ascii :=
  match k with
  | KString => "S" | KVar => "V" | KFail => "F" | KDebug => "D" | KSscanf => "<"
  | KPrintf => "!" | KFprintf => "#" | KSprintf => "$" | KEprintf => "@"
  end%char.
Definition emit (c : ascii) : chars := [c; nl].

(* The number Add_ExtAPI_Object gave to the class bv (bv.c 1329); the classes are registered in a
   fixed order at start-up, so it is the same when loading. *)
Definition bv_class : Z := 3.

(* bv.c 136-147 save_bv_fn: "%d", then "  %d" for every formula, then a newline. *)
Fixpoint put_bits (fs : list Z) (w : wstate) : chars * wstate :=
  match fs with
  | [] => ([nl], w)
  | f :: r =>
      let '(i, w1) := bool_idx f w in
      let '(t, w2) := put_bits r w1 in
      (" "%char :: " "%char :: show_int (Z.of_nat i) ++ t, w2)
  end.
Definition put_bv (fs : list Z) (w : wstate) : chars * wstate :=
  let '(t, w1) := put_bits fs w in (show_int (Z.of_nat (length fs)) ++ t, w1).

(* ---- writing: serialize.c 475-483 write_g_ptr, 535-658 write_g_rec ---- *)
Definition mem (p : ptr) (l : list ptr) : bool := existsb (Pos.eqb p) l.

(* The nodes without children; None where write_g_rec does not belong (nodes with children, done
   in write_ptr) or fails: ASSERT(op->save_fn != NULL). *)
Definition write_leaf (n : node) (w : wstate) : option (chars * wstate) :=
  match n with
  | NNil => Some (emit "0", w)
  | NInt z => let '(t, w1) := put_arbi z w in Some (emit "I" ++ t, w1)
  | NText k s => let '(t, w1) := put_string s w in Some (emit (text_tag k) ++ t, w1)
  | NBool f => let '(t, w1) := put_formula f w in Some (emit "B" ++ t, w1)
  | NBexpr e => let '(t, w1) := put_bexpr e w in Some (emit "E" ++ t, w1)
  | NBv fs => let '(t, w1) := put_bv fs w in Some (emit "O" ++ put_int bv_class ++ t, w1)
  | NFile s => let '(t, w1) := put_string s w in Some (emit "f" ++ t, w1)
  | NCache _ => Some (emit "=", w)
  | NExtapi f => Some (emit "X" ++ put_int f, w)
  | NPrim f => Some (emit "P" ++ put_int f, w)
  | NObj _ | NApp _ _ | NCons _ _ | NRef _ => None
  end%char.

Section Writing.
Variable h : ptr -> option node.
Variable refs : Z -> option ptr.

Fixpoint write_kids (rec : ptr -> wstate -> option (chars * wstate)) (l : list ptr) (w : wstate)
  : option (chars * wstate) :=
  match l with
  | [] => Some ([], w)
  | p :: r =>
      match rec p w with
      | None => None
      | Some (t, w1) => match write_kids rec r w1 with
                        | None => None
                        | Some (t', w2) => Some (t ++ t', w2)
                        end
      end
  end.
Definition tagged (c : ascii) (o : option (chars * wstate)) : option (chars * wstate) :=
  match o with Some (t, w) => Some (emit c ++ t, w) | None => None end.

Fixpoint write_ptr (fuel : nat) (p : ptr) (w : wstate) : option (chars * wstate) :=
  match fuel with
  | O => None
  | S f =>
      if mem p (w_seen w) then Some (put_ptr p, w)
      else
        let w1 := mk_w (p :: w_seen w) (w_strs w) (w_bools w) (w_bexprs w) in
        match h p with
        | None => None
        | Some n =>
            match
              match n with
              | NApp a b => tagged "A" (write_kids (write_ptr f) [a; b] w1)
              | NCons a b => tagged "C" (write_kids (write_ptr f) [a; b] w1)
              | NRef r => match refs r with
                          | Some c => tagged "R" (write_kids (write_ptr f) [c] w1)
                          | None => None
                          end
              | _ => write_leaf n w1
              end
            with
            | Some (t, w2) => Some (put_ptr p ++ t, w2)
            | None => None
            end
        end
  end%char.

(* ---- io.c 1479-1577 can_be_saved ---- *)
Definition std_streams : list chars :=
  [["s"; "t"; "d"; "o"; "u"; "t"]; ["s"; "t"; "d"; "e"; "r"; "r"];
   ["s"; "t"; "d"; "i"; "n"; "f"; "o"]]%char.
Fixpoint check_kids (rec : ptr -> list ptr -> option (bool * list ptr)) (l : list ptr) (seen : list ptr)
  : option (bool * list ptr) :=
  match l with
  | [] => Some (true, seen)
  | p :: r => match rec p seen with
              | Some (true, s1) => check_kids rec r s1
              | o => o
              end
  end.
Fixpoint can_be_saved (fuel : nat) (p : ptr) (seen : list ptr) : option (bool * list ptr) :=
  match fuel with
  | O => None
  | S f =>
      if mem p seen then Some (true, seen)
      else
        let s1 := p :: seen in
        match h p with
        | None => None
        | Some n =>
            match n with
            | NApp a b | NCons a b => check_kids (can_be_saved f) [a; b] s1
            | NRef r => match refs r with
                        | Some c => check_kids (can_be_saved f) [c] s1
                        | None => None
                        end
            | NObj _ => Some (false, s1)
            | NFile s => Some (existsb (chars_eqb s) std_streams, s1)
            | _ => Some (true, s1)
            end
        end
  end.
End Writing.

(* ---- reading: serialize.c 485-505 read_g_ptr, 660-810 read_g_rec ---- *)
(* The session: heap (addresses from s_next on are free), reference variables, number of caches. *)
Record session := mk_s { s_heap : ptr -> option node; s_next : ptr;
                         s_refs : Z -> option ptr; s_nrefs : Z; s_caches : Z }.
(* pointer_map and the session. *)
Record rstate := mk_r { r_map : list (ptr * ptr); r_ses : session }.

Fixpoint old2new (m : list (ptr * ptr)) (p : ptr) : option ptr :=
  match m with
  | [] => None
  | (a, b) :: r => if Pos.eqb a p then Some b else old2new r p
  end.

Definition set_node (p : ptr) (n : node) (s : session) : session :=
  mk_s (fun q => if Pos.eqb q p then Some n else s_heap s q) (s_next s) (s_refs s) (s_nrefs s) (s_caches s).
(* Get_node: the next free address. *)
Definition get_node (s : session) : ptr * session :=
  (s_next s, mk_s (s_heap s) (Pos.succ (s_next s)) (s_refs s) (s_nrefs s) (s_caches s)).
(* cache.c 222-243 Make_RefVar followed by Set_RefVar. *)
Definition make_ref (c : ptr) (s : session) : Z * session :=
  (s_nrefs s, mk_s (s_heap s) (s_next s) (fun r => if Z.eqb r (s_nrefs s) then Some c else s_refs s r)
                   (s_nrefs s + 1) (s_caches s)).
Definition make_cache (s : session) : Z * session :=
  (s_caches s, mk_s (s_heap s) (s_next s) (s_refs s) (s_nrefs s) (s_caches s + 1)).

(* The tables loaded: str_results, bool_results, bexpr_results; the names of the open streams. *)
Record tables := mk_t { t_strs : list chars; t_bools : list Z; t_bexprs : list Z; t_streams : list chars }.

(* FAST_LOC_BUF(buf, idx); None beyond the buffer, where the C code reads whatever is there. *)
Definition at_idx {A} (l : list A) (i : Z) : option A :=
  if i <? 0 then None else nth_error l (Z.to_nat i).

Section Reading.
Variable tb : tables.

Definition get_string (s : chars) : option (chars * chars) :=
  match get_int s with
  | Some (i, r) => match at_idx (t_strs tb) i with Some t => Some (t, r) | None => None end
  | None => None
  end.
(* Arbi_FromString of the whole text. *)
Definition text_int (t : chars) : option Z :=
  match scan_int t with Some (z, []) => Some z | _ => None end.
Definition get_arbi (s : chars) : option (Z * chars) :=
  match get_string s with
  | Some (t, r) => match text_int t with Some z => Some (z, r) | None => None end
  | None => None
  end.
Definition get_formula (s : chars) : option (Z * chars) :=
  match get_int s with
  | Some (i, r) => match at_idx (t_bools tb) i with Some f => Some (f, r) | None => None end
  | None => None
  end.
Definition get_bexpr (s : chars) : option (Z * chars) :=
  match get_int s with
  | Some (i, r) => match at_idx (t_bexprs tb) i with Some f => Some (f, r) | None => None end
  | None => None
  end.

(* bv.c 70-83 trim_bv: drop repeated sign bits. *)
Fixpoint trim (l : list Z) : list Z :=
  match l with
  | x :: ((y :: _) as r) => if x =? y then trim r else l
  | _ => l
  end.
(* bv.c 149-170 load_bv_fn. *)
Fixpoint get_bits (n : nat) (s : chars) : option (list Z * chars) :=
  match n with
  | O => Some ([], s)
  | S k =>
      match scan_int s with
      | None => None
      | Some (i, r) =>
          match at_idx (t_bools tb) i with
          | None => None
          | Some f => match get_bits k r with
                      | Some (fs, r') => Some (f :: fs, r')
                      | None => None
                      end
          end
      end
  end.
Definition get_bv (s : chars) : option (list Z * chars) :=
  match scan_int s with
  | None => None
  | Some (n, r) => match get_bits (Z.to_nat n) r with
                   | Some (fs, r') => Some (trim fs, tl r')
                   | None => None
                   end
  end.

Definition text_of_tag (c : ascii) : option tkind :=
  match c with
  | "S" => Some KString | "F" => Some KFail | "D" => Some KDebug | "<" => Some KSscanf
  | "!" => Some KPrintf | "#" => Some KFprintf | "$" => Some KSprintf | "@" => Some KEprintf
  | _ => None
  end%char.

(* The cases of read_g_rec without children; there is no case for 'V'. *)
Definition read_leaf (c : ascii) (s : chars) (ses : session) : option (node * chars * session) :=
  match text_of_tag c with
  | Some k => match get_string s with Some (t, r) => Some (NText k t, r, ses) | None => None end
  | None =>
    match c with
    | "0" => Some (NNil, s, ses)
    | "I" => match get_arbi s with Some (z, r) => Some (NInt z, r, ses) | None => None end
    | "B" => match get_formula s with Some (f, r) => Some (NBool f, r, ses) | None => None end
    | "E" => match get_bexpr s with Some (f, r) => Some (NBexpr f, r, ses) | None => None end
    | "O" => match get_int s with
             | Some (k, r) =>
                 if (k =? bv_class)%Z then
                   match get_bv r with Some (fs, r') => Some (NBv fs, r', ses) | None => None end
                 else None
             | None => None
             end
    | "f" => match get_string s with
             | Some (t, r) => if existsb (chars_eqb t) (t_streams tb) then Some (NFile t, r, ses) else None
             | None => None
             end
    | "=" => let '(k, ses1) := make_cache ses in Some (NCache k, s, ses1)
    | "X" => match get_int s with Some (f, r) => Some (NExtapi f, r, ses) | None => None end
    | "P" => match get_int s with Some (f, r) => Some (NPrim f, r, ses) | None => None end
    | _ => None
    end
  end%char.

Fixpoint read_ptr (fuel : nat) (s : chars) (st : rstate) : option (ptr * chars * rstate) :=
  match fuel with
  | O => None
  | S f =>
      match get_ptr s with
      | Some (Zpos old, s1) =>
          match old2new (r_map st) old with
          | Some new => Some (new, s1, st)
          | None =>
              let '(new, ses1) := get_node (r_ses st) in
              let st1 := mk_r ((old, new) :: r_map st) ses1 in
              match s1 with
              | c :: _ :: s2 =>
                  match
                    (if Ascii.eqb c "A" || Ascii.eqb c "C" then
                      match read_ptr f s2 st1 with
                      | None => None
                      | Some (a, s3, st2) =>
                          match read_ptr f s3 st2 with
                          | None => None
                          | Some (b, s4, st3) =>
                              Some (if Ascii.eqb c "A" then NApp a b else NCons a b, s4, st3)
                          end
                      end
                    else if Ascii.eqb c "R" then
                      match read_ptr f s2 st1 with
                      | None => None
                      | Some (a, s3, st2) =>
                          let '(r, ses2) := make_ref a (r_ses st2) in
                          Some (NRef r, s3, mk_r (r_map st2) ses2)
                      end
                    else
                      match read_leaf c s2 ses1 with
                      | Some (n, s3, ses2) => Some (n, s3, mk_r (r_map st1) ses2)
                      | None => None
                      end)
                  with
                  | Some (n, s3, st2) => Some (new, s3, mk_r (r_map st2) (set_node new n (r_ses st2)))
                  | None => None
                  end
              | _ => None
              end
          end
      | _ => None
      end
  end%char.
End Reading.

(* ---- the strings file: io.c 1018-1028 (writing), 1133-1159 (reading) ---- *)
(* The C string: what precedes the first 0. *)
Fixpoint c_str (s : chars) : chars :=
  match s with c :: r => if ord c =? 0 then [] else c :: c_str r | [] => [] end.
Definition put_entry (e : entry) : chars :=
  show_int (Z.of_nat (length (c_str (snd e)))) ++ " "%char :: c_str (snd e) ++ [nl].
Definition strs_file (l : list entry) : chars := flat_map put_entry l.

(* The longest string read intact: charappend (strmgr.c) has STR_BLOCK_SIZE = 130000 characters;
   what happens beyond is described by C38, here it is None. *)
Definition str_limit : Z := 129999.

(* One round of the loop gives the string, the rest, and whether the end of the file was met. *)
Definition read_entry (s : chars) : option (chars * chars * bool) :=
  let '(sz, s1) := read_base 10 0 s in
  let '(s2, e1) := match s1 with [] => ([], true) | _ :: r => (r, false) end in
  if sz >? str_limit then None
  else if Z.of_nat (length s2) <? sz then None
  else
    let t := firstn (Z.to_nat sz) s2 in
    let s3 := skipn (Z.to_nat sz) s2 in
    match s3 with [] => Some (t, [], true) | _ :: r => Some (t, r, e1) end.
Fixpoint read_entries (fuel : nat) (s : chars) : option (list chars) :=
  match fuel with
  | O => None
  | S f => match read_entry s with
           | None => None
           | Some (t, r, eof) =>
               if (eof : bool) then Some [t]
               else match read_entries f r with Some l => Some (t :: l) | None => None end
           end
  end.

(* ---- Save_graph, Load_graph: io.c 980-1052, 1054-1182 ---- *)
Record archive := mk_a { a_sig : chars; a_bexprs : list Z; a_bools : list Z; a_strs : chars; a_graph : chars }.

(* Some None: refused, with a message. *)
Definition save_graph (fuel : nat) (cnt : Z) (sig : chars) (h : ptr -> option node) (refs : Z -> option ptr)
  (root : ptr) : option (option archive) :=
  match can_be_saved h refs fuel root [] with
  | None => None
  | Some (false, _) => Some None
  | Some (true, _) =>
      match write_ptr h refs fuel root (mk_w [] [] [] []) with
      | None => None
      | Some (t, w) =>
          Some (Some (mk_a (put_int cnt ++ sig ++ [nl]) (w_bexprs w) (w_bools w)
                           (strs_file (w_strs w)) t))
      end
  end.

(* fgets(tmp, STR_BLOCK_SIZE-1, fp): up to and with the first newline, at most 129998 characters. *)
Fixpoint fgets (n : nat) (s : chars) : chars :=
  match n, s with
  | S k, c :: r => if Ascii.eqb c nl then [c] else c :: fgets k r
  | _, _ => []
  end.
Fixpoint is_prefix (a b : chars) : bool :=
  match a, b with
  | [], _ => true
  | x :: a', y :: b' => Ascii.eqb x y && is_prefix a' b'
  | _, _ => false
  end.
(* strncmp(tmp, type_sig, strlen(type_sig)) == 0 *)
Definition sig_ok (sig file : chars) : option bool :=
  match get_int file with
  | Some (_, r) => Some (is_prefix sig (fgets (Z.to_nat 129998) r))
  | None => Some false
  end.

(* The last three arguments of the archive come from Load_BDDs and Load_bexprs; the result is the
   node read and the session, in which redex has been overwritten by a copy of that node.
   Some None: the redex is a failure. *)
Definition load_graph (fuel : nat) (sig : chars) (a : archive) (bools bexprs : list Z) (streams : list chars)
  (redex : ptr) (s : session) : option (option (ptr * session)) :=
  match sig_ok sig (a_sig a) with
  | None => None
  | Some false => Some None
  | Some true =>
      match read_entries (S (length (a_strs a))) (a_strs a) with
      | None => Some None
      | Some strs =>
          match read_ptr (mk_t strs bools bexprs streams) fuel (a_graph a) (mk_r [] s) with
          | None => None
          | Some (p, _, st) =>
              match s_heap (r_ses st) p with
              | None => None
              | Some n => Some (Some (p, set_node redex n (r_ses st)))
              end
          end
      end
  end.
