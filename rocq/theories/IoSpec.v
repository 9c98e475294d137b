(** * What formatted printing should do

    Patterns are built from items here; the meaning of an item is given without
    looking at the pattern, at a buffer or at the way the code gets there. *)

From Coq Require Import String Ascii List Bool Arith ZArith.
From Verif Require Import ArbStr InfModel IoModel.
Import ListNotations.
Open Scope list_scope.
Open Scope Z_scope.

Inductive letter := Lb | Lo | Lx | Ld | Ls | LB | LS.
Inductive width := NoW | W (d : nat) (ds : list nat) | Star.
Inductive item := Lit (c : ascii) | Pct | Dir (lj zero : bool) (w : width) (k : letter).

(** ** Patterns as text *)
Definition show_letter (k : letter) : ascii :=
  match k with Lb => "b" | Lo => "o" | Lx => "x" | Ld => "d" | Ls => "s" | LB => "B" | LS => "S" end%char.
Fixpoint show_digits (ds : list nat) (s : string) : string :=
  match ds with [] => s | d :: ds => String (ascii_of_nat (48 + d)) (show_digits ds s) end.
Definition show_width (w : width) (s : string) : string :=
  match w with NoW => s | W d ds => show_digits (d :: ds) s | Star => String "*" s end.
Definition show_item (i : item) (s : string) : string :=
  match i with
  | Lit c => String c s
  | Pct => String "%" (String "%" s)
  | Dir lj zero w k =>
      let s := show_width w (String (show_letter k) s) in
      let s := if zero then String "0" s else s in
      String "%" (if lj then String "-" s else s)
  end.
Fixpoint show (l : list item) : string :=
  match l with [] => EmptyString | i :: l => show_item i (show l) end.

(** ** Texts *)

(** [body] with the sign [sgn] in a field of width [w]; no width when [w] is 0; [None] when it
    does not fit. *)
Definition field (lj zero : bool) (w : Z) (sgn body : text) : option text :=
  let n := w - Z.of_nat (length sgn + length body) in
  if (0 <? w) && (n <? 0) then None else
  let fill c := repeat c (Z.to_nat n) in
  Some (if lj then sgn ++ body ++ fill 32
        else if zero then sgn ++ fill 48 ++ body
        else fill 32 ++ sgn ++ body).

Definition sign (z : Z) : text := if z <? 0 then [45] else [].

(** The last [n] digits of [z] in two's complement. *)
Definition twos (n : nat) (z : Z) : text :=
  map (fun i => if Z.testbit z (Z.of_nat i) then 49 else 48) (rev (seq 0 n)).

(** How many binary digits there are in [|z|]. *)
Definition bits (z : Z) : nat := if z =? 0 then 1%nat else S (Z.to_nat (Z.log2 (Z.abs z))).

Definition binary (zero : bool) (w z : Z) : option text :=
  if w =? 0 then Some (twos (if zero || (z =? 0) then bits z else S (bits z)) z)
  else if 2 ^ w <=? Z.abs z then None else Some (twos (Z.to_nat w) z).

Fixpoint fields (lj zero : bool) (w : Z) (l : list text) : option (list text) :=
  match l with
  | [] => Some []
  | s :: l =>
      match field lj zero w [] s, fields lj zero w l with
      | Some t, Some ts => Some (t :: ts)
      | _, _ => None
      end
  end.
Fixpoint commas (l : list text) : text :=
  match l with [] => [] | [t] => t | t :: l => t ++ [44; 32] ++ commas l end.

(** The text of one argument. Arguments of another kind have none. *)
Inductive formats (lj zero : bool) (w : Z) : letter -> value -> option text -> Prop :=
| f_b z : formats lj zero w Lb (VInt z) (binary zero w z)
| f_o z : formats lj zero w Lo (VInt z) (field lj zero w (sign z) (num 8 (Z.abs z)))
| f_x z : formats lj zero w Lx (VInt z) (field lj zero w (sign z) (num 16 (Z.abs z)))
| f_d z : formats lj zero w Ld (VInt z) (field lj zero w (sign z) (num 10 (Z.abs z)))
| f_s t : formats lj zero w Ls (VStr t) (field lj zero w [] t)
| f_B t : formats lj zero w LB (VBool t) (field lj zero w [] t)
| f_S l : formats lj zero w LS (VStrs l)
    (option_map (fun ts => [91] ++ commas ts ++ [93]) (fields lj zero w l)).

(** The width, and the arguments that are left. *)
Inductive takes : width -> list value -> Z -> list value -> Prop :=
| t_no args : takes NoW args 0 args
| t_w d ds args n : (1 <= d <= 9)%nat -> Forall (fun d => (d <= 9)%nat) ds ->
    n = fold_left (fun a d => 10 * a + Z.of_nat d) (d :: ds) 0 -> n < 2 ^ 31 ->
    takes (W d ds) args n args
| t_star z args : 0 <= z < 2 ^ 31 -> takes Star (VInt z :: args) z args.

Definition both (a b : option text) : option text :=
  match a, b with Some x, Some y => Some (x ++ y) | _, _ => None end.

(** [prints l args o]: with the arguments [args] the pattern [l] stands for the text [o];
    [None] when some argument does not fit. *)
Inductive prints : list item -> list value -> option text -> Prop :=
| p_nil : prints [] [] (Some [])
| p_lit c l args o : c <> "%"%char -> prints l args o ->
    prints (Lit c :: l) args (both (Some [code c]) o)
| p_pct l args o : prints l args o -> prints (Pct :: l) args (both (Some [37]) o)
| p_dir lj zero w k l args n v args' r o :
    takes w args n (v :: args') -> formats lj zero n k v r -> prints l args' o ->
    prints (Dir lj zero w k :: l) args (both r o).

(** ** Patterns that can be read back

    A directive without width is followed by something that cannot belong to it; one of fixed
    width that is filled with zeros, for numbers that are not negative, needs no separator. *)
Definition base_of (k : letter) : option Z :=
  match k with Lb => Some 2 | Lo => Some 8 | Lx => Some 16 | Ld => Some 10 | _ => None end.

Definition is_digit (base c : Z) : bool :=
  ((48 <=? c) && (c <=? 57) && (c - 48 <? base))
  || ((base =? 16) && (((97 <=? c) && (c <=? 102)) || ((65 <=? c) && (c <=? 70)))).

Definition next (l : list item) (ok : Z -> bool) : Prop :=
  match l with
  | [] => True
  | Lit c :: _ => ok (code c) = true
  | Pct :: _ => ok 37 = true
  | Dir _ _ _ _ :: _ => False
  end.

(** For base 16, ':', 'g' and 'G' do not end a number in the code (see the refutation). *)
Definition stops (base c : Z) : bool :=
  negb (is_digit base c) && negb ((base =? 16) && ((c =? 58) || (c =? 71) || (c =? 103))).

Inductive scans : list item -> list value -> Prop :=
| s_nil : scans [] []
| s_lit c l args : scans l args -> scans (Lit c :: l) args
| s_pct l args : scans l args -> scans (Pct :: l) args
| s_int k base z l args : base_of k = Some base -> (k = Lb -> 0 <= z) ->
    next l (stops base) -> scans l args -> scans (Dir false false NoW k :: l) (VInt z :: args)
| s_fixed k base d ds z l args : base_of k = Some base -> 0 <= z ->
    scans l args -> scans (Dir false true (W d ds) k :: l) (VInt z :: args)
| s_str t l args : Forall (fun c => isspace c = false) t ->
    next l isspace -> scans l args -> scans (Dir false false NoW Ls :: l) (VStr t :: args).

(** ** Kinds of arguments and the types of the type checker *)
Definition type_of (v : value) : sch :=
  match v with
  | VInt _ => sint | VStr _ => sstring | VBool _ => sbool | VStrs _ => slist sstring
  end.
Definition arrow_free (t : sch) : Prop := forall a b, t <> sarrow a b.
