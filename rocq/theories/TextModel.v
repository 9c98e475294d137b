(* The string functions of fl (src/bin/fl/voss_strings.c 599-900, 1079-1370).

   A string is the list of its characters, without NUL and not longer than STR_BLOCK_SIZE (see
   C38).  A buffer is a list of characters; strtemp copies a string into a buffer that goes on
   with whatever was there before (junk).  The functions of the C library (strlen, strstr,
   strncmp, strcmp, isspace in the C locale) are modelled by what their standard says; a
   character above 127 is no space.  Integers are C ints.  Reference counts are not modelled. *)
From Coq Require Import ZArith List Bool Ascii Lia.
Import ListNotations.
Open Scope Z_scope.

Definition chars := list ascii.
Definition NUL : ascii := Ascii.zero.

(* Fail: a failure in fl.  Undef: an access outside of a buffer, an overflow, a division by 0,
   or a loop without end. *)
Inductive out (A : Type) := Ok (a : A) | Fail | Undef.
Arguments Ok {A}. Arguments Fail {A}. Arguments Undef {A}.
Notation "'do' x <- e ; f" := (match e with Ok x => f | Fail => Fail | Undef => Undef end)
  (at level 200, x pattern, e at level 100, f at level 200).

Definition int (z : Z) : out Z :=
  if (-2147483648 <=? z) && (z <=? 2147483647) then Ok z else Undef.

(* --- memory ----------------------------------------------------------------------- *)

Definition in_string (s : chars) : list ascii := s ++ [NUL].
Definition strtemp (s : chars) (junk : list ascii) : list ascii := s ++ NUL :: junk.

Fixpoint cstr (b : list ascii) : out chars :=
  match b with
  | [] => Undef
  | c :: b => if Ascii.eqb c NUL then Ok [] else do r <- cstr b; Ok (c :: r)
  end.
(* The string at a place in a buffer. *)
Definition text (b : list ascii) (i : Z) : out chars :=
  if i <? 0 then Undef else cstr (skipn (Z.to_nat i) b).
Definition peek (b : list ascii) (i : Z) : out ascii :=
  if i <? 0 then Undef
  else match nth_error b (Z.to_nat i) with Some c => Ok c | None => Undef end.
Fixpoint put (b : list ascii) (i : nat) (c : ascii) : list ascii :=
  match b, i with
  | [], _ => []
  | _ :: b, O => c :: b
  | d :: b, S i => d :: put b i c
  end.
Definition poke (b : list ascii) (i : Z) (c : ascii) : out (list ascii) :=
  if (i <? 0) || (Z.of_nat (length b) <=? i) then Undef else Ok (put b (Z.to_nat i) c).

(* --- the C library ---------------------------------------------------------------- *)

Definition strlen (s : chars) : Z := Z.of_nat (length s).
(* strncmp(p, s, strlen(p)) == 0 *)
Fixpoint prefixb (p s : chars) : bool :=
  match p, s with
  | [], _ => true
  | c :: p, d :: s => Ascii.eqb c d && prefixb p s
  | _, _ => false
  end.
Definition eqb (s t : chars) : bool := if list_eq_dec ascii_dec s t then true else false.
(* strstr, as a distance. *)
Fixpoint strstr (h n : chars) : option nat :=
  if prefixb n h then Some O
  else match h with [] => None | _ :: h => option_map S (strstr h n) end.
Definition is_space (c : ascii) : bool :=
  let n := nat_of_ascii c in ((9 <=? n) && (n <=? 13))%nat || (n =? 32)%nat.

(* --- the functions ---------------------------------------------------------------- *)

(* str_is_prefix, str_is_suffix, str_is_substr (voss_strings.c 792-846). *)
Definition is_prefix (p s : chars) : bool := prefixb p s.
Definition is_suffix (p s : chars) : out bool :=
  if strlen p <=? strlen s then
    do t <- text (in_string s) (strlen s - strlen p); Ok (eqb t p)
  else Ok false.
Definition is_substr (n h : chars) : bool := match strstr h n with Some _ => true | None => false end.

(* strstr (string_strstr, 1138-1155). *)
Definition position (h n : chars) : Z :=
  match strstr h n with None => 0 | Some i => 1 + Z.of_nat i end.

(* string_lastn, string_butlastn, string_butfirstn (1078-1136). *)
Definition lastn (junk : list ascii) (s : chars) (n : Z) : out chars :=
  if strlen s <=? n then Ok s else text (strtemp s junk) (strlen s - n).
Definition butlastn (junk : list ascii) (s : chars) (n : Z) : out chars :=
  if strlen s <=? n then Ok []
  else do b <- poke (strtemp s junk) (strlen s - n) NUL; text b 0.
Definition butfirstn (s : chars) (n : Z) : out chars :=
  if strlen s <? n then Fail else text (in_string s) n.

(* string_substr (1172-1221). *)
Definition substr (junk : list ascii) (s : chars) (loc cnt : Z) : out chars :=
  if loc <? 1 then Fail
  else if strlen s <? loc then Ok []
  else if cnt <? 0 then text (in_string s) (loc - 1)
  else
    do e <- int (loc + cnt);
    if strlen s <? e - 1 then Fail
    else
      do t <- text (in_string s) (loc - 1);
      do b <- poke (strtemp t junk) cnt NUL;
      text b 0.

(* string_trim (1223-1246).  10 is a space already. *)
Fixpoint skip_space (s : chars) : chars :=
  match s with c :: r => if is_space c then skip_space r else s | [] => [] end.
(* The loop from the end: t is the distance from f. *)
Fixpoint trim_end (f : chars) (t : nat) : nat :=
  match t with
  | O => O
  | S t' => match nth_error f t with
            | Some c => if is_space c then trim_end f t' else t
            | None => t
            end
  end.
Definition trim (s : chars) : chars :=
  let f := skip_space s in
  match f with
  | [] => []
  | _ => firstn (S (trim_end f (length f - 1))) f
  end.

(* string_gen_trim (1248-1289).  The loop for the last place of the suffix. *)
Fixpoint last_occ (gas : nat) (b : list ascii) (suff : chars) (last : Z) : out Z :=
  match gas with
  | O => Undef
  | S gas =>
      do t <- text b (last + 1);
      match strstr t suff with
      | None => Ok last
      | Some i => last_occ gas b suff (last + 1 + Z.of_nat i)
      end
  end.
Definition gen_trim (junk : list ascii) (pref suff s : chars) : out chars :=
  match strstr s pref with
  | None => Fail
  | Some i =>
      let t := skipn (i + length pref) s in
      let b := strtemp t junk in
      match strstr t suff with
      | None => Fail
      | Some j =>
          do last <- last_occ (S (length b)) b suff (Z.of_nat j);
          do b <- poke b last NUL;
          text b 0
      end
  end.

(* string_str_cluster (1291-1323). *)
Fixpoint cluster_loop (gas : nat) (b : list ascii) (t sz : Z) : out (list chars) :=
  match gas with
  | O => Undef
  | S gas =>
      do c <- peek b t;
      if Ascii.eqb c NUL then Ok []
      else
        do c <- peek b (t + sz);
        do b <- poke b (t + sz) NUL;
        do item <- text b t;
        do b <- poke b (t + sz) c;
        do r <- cluster_loop gas b (t + sz) sz;
        Ok (item :: r)
  end.
Definition cluster (junk : list ascii) (s : chars) (sz : Z) : out (list chars) :=
  if sz =? 0 then Undef
  else if negb (Z.rem (strlen s) sz =? 0) then Fail
  else cluster_loop (S (length s)) (strtemp s junk) 0 sz.

(* str_split (866-908).  The loop is on the rest of the string. *)
Fixpoint split_loop (gas : nat) (cur sep : chars) (one : bool) : out (list chars) :=
  match gas with
  | O => Undef
  | S gas =>
      match strstr cur sep with
      | Some i =>
          do r <- split_loop gas (skipn (i + length sep) cur) sep true;
          Ok (firstn i cur :: r)
      | None =>
          match cur, one with
          | [], false => Ok []
          | _, _ => Ok [cur]
          end
      end
  end.
Definition split (s sep : chars) : out (list chars) :=
  match sep with
  | [] => Ok (map (fun c => [c]) s)
  | _ => split_loop (S (length s)) s sep false
  end.

(* implode (1342-1369); m is Get_max_strlen. *)
Fixpoint implode_loop (m len : Z) (res : chars) (l : list chars) : out chars :=
  match l with
  | [] => Ok res
  | s :: l =>
      let len := len + strlen s in
      if m <? len then Fail else implode_loop m len (res ++ s) l
  end.
Definition implode (m : Z) (l : list chars) : out chars := implode_loop m 0 [] l.

(* tcl2list (670-734). *)
Fixpoint tcl_loop (gas : nat) (b : list ascii) (c start level : Z) : out (list chars) :=
  match gas with
  | O => Undef
  | S gas =>
      do x <- peek b c;
      if Ascii.eqb x NUL then
        if start =? c then Ok [] else do e <- text b start; Ok [e]
      else if Ascii.eqb x " "%char then
        if level =? 0 then
          do b <- poke b c NUL;
          do e <- text b start;
          do r <- tcl_loop gas b (c + 1) (c + 1) level;
          Ok (e :: r)
        else tcl_loop gas b (c + 1) start level
      else if Ascii.eqb x "\"%char then tcl_loop gas b (c + 2) start level
      else if Ascii.eqb x "{"%char then
        if level =? 0 then tcl_loop gas b (c + 1) (c + 1) (level + 1)
        else tcl_loop gas b (c + 1) start (level + 1)
      else if Ascii.eqb x "}"%char then
        if 1 <? level then tcl_loop gas b (c + 1) start (level - 1)
        else
          do b <- poke b c NUL;
          do e <- text b start;
          do y <- peek b (c + 1);
          let c := if Ascii.eqb y " "%char then c + 2 else c + 1 in
          do r <- tcl_loop gas b c c (level - 1);
          Ok (e :: r)
      else tcl_loop gas b (c + 1) start level
  end.
Definition tcl2list (junk : list ascii) (s : chars) : out (list chars) :=
  let b := strtemp s junk in tcl_loop (S (length b)) b 0 0 0.

(* --- regular expressions ---------------------------------------------------------- *)

(* A line of the cache of compile_regexp: the pattern, and when it was used. *)
Definition line := option (chars * Z).
(* The search (voss_strings.c 2336-2353): Some i, the pattern is in line i; oldest, oldest_idx
   and hole. *)
Fixpoint search (l : list line) (p : chars) (i oldest oldest_idx hole : Z) : Z + (Z * Z) :=
  match l with
  | [] => inr (oldest_idx, hole)
  | Some (q, used) :: l =>
      if eqb p q then inl i
      else if (oldest =? 0) || (used <? oldest) then search l p (i + 1) used i hole
      else search l p (i + 1) oldest oldest_idx hole
  | None :: l => search l p (i + 1) oldest oldest_idx i
  end.
(* compile_regexp (2329-2373): the line with the compiled pattern, and the cache.  ok says
   whether regcomp takes the pattern. *)
Fixpoint put_line (l : list line) (i : nat) (x : line) : list line :=
  match l, i with
  | [], _ => []
  | _ :: l, O => x :: l
  | y :: l, S i => y :: put_line l i x
  end.
Definition compile_regexp (now : Z) (ok : bool) (l : list line) (p : chars) : out (Z * list line) :=
  match search l p 0 0 (-1) (-1) with
  | inl i => Ok (i, put_line l (Z.to_nat i) (Some (p, now)))
  | inr (oldest_idx, hole) =>
      let new := if hole =? -1 then hole else oldest_idx in
      if new <? 0 then Undef
      else if ok then Ok (new, put_line l (Z.to_nat new) (Some (p, now)))
      else Fail
  end.
(* After Strings_Init (84-95). *)
Definition regexps : list line := repeat None 10.
