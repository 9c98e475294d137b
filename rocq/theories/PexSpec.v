(* Specification for PexModel.v: what a design means, and names of wires. *)
From Coq Require Import ZArith List Bool Ascii String.
From Verif Require Import IlistModel IlistSpec IlistThms VnameModel VnameThms VnameMerge PexModel.
Import ListNotations.
Open Scope list_scope.

(* --- names of wires ------------------------------------------------------------------- *)

(* A word: not empty, no bracket and no star, not escaped, not the start of a constant. *)
Definition letter (c : ascii) : Prop := c <> "["%char /\ c <> "]"%char /\ c <> "*"%char.
Definition word (n : chars) : Prop :=
  n <> [] /\ Forall letter n /\
  match n with "\"%char :: _ => False | "0"%char :: "b"%char :: _ => False | _ => True end.

(* The name n, or n[ranges]suffix. *)
Definition index := option (list (Z * Z) * chars)%type.
Definition index_ok (o : index) : Prop :=
  match o with
  | None => True
  | Some (rs, suf) => rs <> [] /\ Forall (fun c => c <> "["%char /\ c <> "*"%char) suf
  end.
Definition named (n : chars) (o : index) : chars :=
  n ++ match o with
       | None => []
       | Some (rs, suf) => "["%char :: show_ranges rs ++ "]"%char :: suf
       end.
(* Its scalars. *)
Definition scalars_of (n : chars) (o : index) : list chars :=
  match o with
  | None => [n]
  | Some (rs, suf) =>
      map (fun i => n ++ "["%char :: show_int i ++ "]"%char :: suf) (ints rs)
  end.

Definition wire (s : chars) : Prop := exists n o, word n /\ index_ok o /\ s = named n o.

(* A constant 0b..., with digits 0, 1 and x. *)
Definition bit (c : ascii) : Prop := c = "0"%char \/ c = "1"%char \/ c = "x"%char.
Definition const (r : chars) : chars := "0"%char :: "b"%char :: r.
Definition constant (s : chars) : Prop := exists r, r <> [] /\ Forall bit r /\ s = const r.

(* A name and the scalars that it stands for. *)
Inductive stands : chars -> list chars -> Prop :=
| stands_wire n o : word n -> index_ok o -> stands (named n o) (scalars_of n o)
| stands_const r : r <> [] -> Forall bit r -> stands (const r) (map (fun c => const [c]) r).

Inductive stand : list chars -> list chars -> Prop :=
| stand_nil : stand [] []
| stand_cons s l ss ls : stands s ss -> stand l ls -> stand (s :: l) (ss ++ ls).

(* --- meaning ------------------------------------------------------------------------------ *)

Section Meaning.
Context {F V : Type}.
Variable K : ascii -> V.                       (* values of the constants *)
Variable sat : F -> (chars -> V) -> Prop.      (* what the functions of a leaf say about its wires *)

Definition env := chars -> V.
Definition proper (e : env) : Prop := forall c, bit c -> e (const [c]) = K c.

(* e outside and e' inside an instance agree through its ports. *)
Definition port (e e' : env) (a : fa) : Prop :=
  exists fs ss, stands (fst a) fs /\ stand (snd a) ss /\ map e' fs = map e ss.

(* The functions of all leaves below p hold, for values e of the wires of p. *)
Fixpoint inside (p : pex F) (e : env) : Prop :=
  match p with
  | Leaf _ f => sat f e
  | Hier _ l =>
      (fix all (l : list (pex F)) : Prop :=
         match l with
         | [] => True
         | c :: l =>
             (exists e', proper e' /\ Forall (port e e') (h_inps (head_of c) ++ h_outs (head_of c)) /\ inside c e')
             /\ all l
         end) l
  end.

(* The scalars of the names in a list. *)
Definition in_names (l : list chars) (s : chars) : Prop := exists n ss, In n l /\ stands n ss /\ In s ss.

(* The formals, and all wires, of an instance. *)
Definition formals (h : head) : list chars := map fst (h_inps h ++ h_outs h).
Definition wires (h : head) : list chars := formals h ++ h_ints h.

(* The values of the scalars of the names l can occur. *)
Definition possible (p : pex F) (l : list chars) (e : env) : Prop :=
  exists e1, proper e1 /\ (forall s, in_names l s -> e1 s = e s) /\ inside p e1.
End Meaning.

(* --- scopes --------------------------------------------------------------------------------- *)

(* The actuals of the children use the wires of h and constants only. *)
Definition scoped {F} (h : head) (l : list (pex F)) : Prop :=
  Forall wire (wires h) /\
  forall c a x, In c l -> In a (h_inps (head_of c) ++ h_outs (head_of c)) -> In x (snd a) ->
    wire x /\ (forall ss s, stands x ss -> In s ss -> in_names (wires h) s) \/ constant x.

(* The formals and actuals of an instance fit. *)
Definition fits (h : head) : Prop :=
  forall a, In a (h_inps h ++ h_outs h) ->
    snd a <> [] /\ exists fs ss, stands (fst a) fs /\ stand (snd a) ss /\ List.length fs = List.length ss.

(* No wire occurs twice. *)
Definition distinct (l : list chars) : Prop := exists ss, stand l ss /\ NoDup ss.

(* --- internal wires --------------------------------------------------------------------------- *)

(* One range other than -1:0, or ranges in falling order. *)
Definition neat (s : chars) : Prop :=
  exists n o, word n /\ index_ok o /\ s = named n o /\
    match o with
    | None => True
    | Some (rs, _) => falling rs \/ exists p, rs = [p] /\ p <> (-1, 0)%Z
    end.

(* Not "_$" with a sign or a space behind it. *)
Definition steady (s : chars) : Prop :=
  match s with
  | "_"%char :: "$"%char :: c :: _ => c <> "-"%char /\ c <> "+"%char /\ ~ is_space c = true
  | _ => True
  end.

(* Other internal wires. *)
Definition set_ints (h : head) (ints : list chars) : head :=
  Head (h_name h) (h_attrs h) (h_leaf h) (h_inps h) (h_outs h) ints.

(* A child that has only other actuals, and the attributes at in addition. *)
Definition rewired (at_ : list (chars * chars)) (h h' : head) : Prop :=
  h_name h' = h_name h /\ h_attrs h' = h_attrs h ++ at_ /\ h_leaf h' = h_leaf h /\ h_ints h' = h_ints h
  /\ map fst (h_inps h') = map fst (h_inps h) /\ map fst (h_outs h') = map fst (h_outs h).
Inductive lifted {F} (at_ : list (chars * chars)) : pex F -> pex F -> Prop :=
| lifted_leaf h h' f : rewired at_ h h' -> lifted at_ (Leaf h f) (Leaf h' f)
| lifted_hier h h' l : rewired at_ h h' -> lifted at_ (Hier h l) (Hier h' l).

(* --- folding ------------------------------------------------------------------------------------ *)

(* A wire with one range at most, not a rising one. *)
Definition simple (s : chars) : Prop :=
  exists n o, word n /\ index_ok o /\ s = named n o /\
    match o with None => True | Some (rs, _) => exists u l, rs = [(u, l)] /\ (l <= u)%Z end.

(* The scalar s is at the port list. *)
Definition at_port (l : list fa) (s : chars) : Prop := exists a, In a l /\ in_names (snd a) s.

(* Something gives the wire s a value; something reads it.  The formals of h are inputs of the
   surroundings and the other way round. *)
Definition driven {F} (h : head) (l : list (pex F)) (s : chars) : Prop :=
  (exists c, In c l /\ at_port (h_outs (head_of c)) s) \/ in_names (map fst (h_inps h)) s.
Definition read {F} (h : head) (l : list (pex F)) (s : chars) : Prop :=
  (exists c, In c l /\ at_port (h_inps (head_of c)) s) \/ in_names (map fst (h_outs h)) s.

Definition touches {F} (c : pex F) (s : chars) : Prop := at_port (h_inps (head_of c) ++ h_outs (head_of c)) s.

(* Wires between the instances with numbers in ids and others have both. *)
Definition linked {F} (h : head) (l : list (pex F)) (ids : list nat) : Prop :=
  forall i c s, nth_error l i = Some c -> In (S i) ids -> touches c s -> ~ constant s ->
    (exists j d, nth_error l j = Some d /\ ~ In (S j) ids /\ touches d s) \/ in_names (formals h) s ->
    driven h l s /\ read h l s.

(* All names of the design are simple wires or constants. *)
Definition simply {F} (h : head) (l : list (pex F)) : Prop :=
  Forall simple (formals h) /\
  forall c a x, In c l -> In a (h_inps (head_of c) ++ h_outs (head_of c)) -> In x (snd a) -> simple x \/ constant x.

(* The instances with numbers in ids, or the others, from 1. *)
Definition chosen {F} (b : bool) (ids : list nat) (l : list (pex F)) : list (pex F) :=
  map snd (filter (fun p => Bool.eqb (existsb (Nat.eqb (fst p)) ids) b) (combine (seq 1 (List.length l)) l)).
