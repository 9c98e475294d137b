(* Model of type inference in src/bin/fl/typecheck.c: make_arrow and its relatives (1013-1074),
   printf_type (1172), sscanf_type (1252), get_prim_fun_type (1578), check_hint (1984),
   build_node_type_struct (2004), copy_to_persistent_store and fresh_inst (2779-2934), and
   TypeCheck (193) for expressions without overloaded functions.

   The stores of types are those of TyModel.v.  Simplifications.
   - The types of defined functions are in a store of their own (the persistent store); the types
     made during inference and the types of the hints are in another.
   - int_op, bool_op and so on are single nodes in C; here each use is a new node.  unify never
     compares their addresses.
   - The marks that copying leaves in the field alias (cleared first by clean_aliases) are a
     table, empty at the start.
   - The table lvars_tbl is an association list.  The record of types kept for error messages and
     for overloading (node_type_rec) is left out, and so are the messages.
   - An expression is a tree; the type hint of a node, if any, is a pointer to a type. *)
From Coq Require Import String List Bool Arith Ascii.
From Verif Require Import TyModel.
Import ListNotations.
Open Scope list_scope.

(* ---- the types of the primitives ---- *)

(* A type with numbered variables. *)
Inductive sch := SV (i : nat) | SC (c : con) (l : list sch).
Definition sarrow a b := SC CArrow [a; b].
Definition stuple a b := SC CTuple [a; b].
Definition slist a := SC CList [a].
Definition sref a := SC CRef [a].
Definition sint := SC CInt [].
Definition sbool := SC CBool [].
Definition sstring := SC CString [].
Definition svoid := SC CVoid [].
Definition sfp := SC CFp [].

(* PROCESS_PRINTF_PAT, io.h 16-85: the conversions of a pattern from left to right.  At a '%' that
   ends the pattern the loop steps over the terminating zero: None. *)
Inductive conv := KStar | KInt | KStr | KBool | KStrs.
Fixpoint printf_pat (skip : bool) (s : string) : option (list conv) :=
  match s with
  | EmptyString => if skip then None else Some []
  | String c s =>
      let more k := match printf_pat false s with Some l => Some (k :: l) | None => None end in
      if skip then
        match c with
        | "0" | "1" | "2" | "3" | "4" | "5" | "6" | "7" | "8" | "9" | "-" => printf_pat true s
        | "*" => match printf_pat true s with Some l => Some (KStar :: l) | None => None end
        | "b" | "o" | "x" | "d" => more KInt
        | "s" => more KStr
        | "B" => more KBool
        | "S" => more KStrs
        | _ => printf_pat false s
        end%char
      else if Ascii.eqb c "%"%char then printf_pat true s
      else printf_pat false s
  end.

Inductive prim :=
| P_S | P_K | P_I | P_C | P_B | P_BPRIME | P_SPRIME | P_CPRIME | P_BSTAR | P_Y
| P_FST | P_SND | P_HEAD | P_TAIL | P_TUPLE | P_CONS | P_COND | P_CAT | P_EMPTY | P_LOAD
| P_LOAD_PLUGIN | P_ERROR | P_PCATCH | P_CATCH | P_SEQ | P_FSEQ | P_NSEQ | P_IS_CONS
| P_FORALL | P_THEREIS | P_QUANT_FORALL | P_QUANT_THEREIS | P_IDENTICAL | P_EQUAL
| P_NOT_EQUAL | P_CONSTR_EQ | P_FAIL | P_PFAIL | P_PRINT | P_DEBUG | P_STRING_HD
| P_STRING_TL | P_SUC | P_ORD | P_CHR | P_EXPLODE | P_BOOL2STR | P_INT2STR | P_TIME
| P_BDD_SAVE | P_BDD_LOAD | P_BDD_REORDER | P_RELPROD_THEREIS | P_RELPROD_FORALL | P_RVAR
| P_VAR_ORDER | P_SYSTEM | P_EVAL | P_CACHE | P_STRICT_ARGS | P_IS_TUPLE | P_STRICT_TUPLE
| P_STRICT_CONS | P_MK_REF_VAR | P_DEREFERENCE | P_UPDATE_RVAR | P_REF_VAR
| P_WRITE_TO_FILE | P_PRINTF (pat : string) | P_FPRINTF (pat : string) | P_SPRINTF (pat : string)
| P_EPRINTF (pat : string) | P_SSCANF (pat : string) | P_VOID | P_FILEFP | P_GEN_CATCH
| P_TCL_EVAL | P_GET_VOSSRC | P_UPDATE_VOSSRC | P_HELP | P_SAVE_GRAPH | P_LOAD_GRAPH | P_EXIT
| P_THEN | P_UNTYPE | P_NAMED_ARG
| P_OTHER.  (* any primitive without a case in the switch *)

Inductive pres :=
| PType (t : sch)
| PFail      (* failure(...) *)
| PCrash.    (* DIE, or reading past the end of the pattern *)

(* printf_type: the arguments from left to right, then the result. *)
Definition conv_sch (k : conv) : sch :=
  match k with
  | KStar | KInt => sint
  | KStr => sstring
  | KBool => sbool
  | KStrs => slist sstring
  end.
Definition printf_type (pat : string) (res : sch) : pres :=
  match printf_pat false pat with
  | None => PCrash
  | Some l => PType (fold_right sarrow res (map conv_sch l))
  end.
Definition then_arrow (a : sch) (r : pres) : pres :=
  match r with PType t => PType (sarrow a t) | r => r end.

(* sscanf_type: the widths are arguments, the other conversions are delivered; %B and %S are
   rejected when they are met. *)
Definition is_star k := match k with KStar => true | _ => false end.
Definition is_bad k := match k with KBool | KStrs => true | _ => false end.
Fixpoint tuple_of (l : list sch) : sch :=
  match l with
  | [] => svoid
  | [t] => t
  | t :: l => stuple t (tuple_of l)
  end.
(* The pattern is scanned from the left: a %B or %S before the end of the pattern is reported
   before the end is met. *)
Fixpoint has_bad (skip : bool) (s : string) : bool :=
  match s with
  | EmptyString => false
  | String c s =>
      if skip then
        match c with
        | "0" | "1" | "2" | "3" | "4" | "5" | "6" | "7" | "8" | "9" | "-" | "*" => has_bad true s
        | "B" | "S" => true
        | _ => has_bad false s
        end%char
      else has_bad (Ascii.eqb c "%"%char) s
  end.
Definition sscanf_type (pat : string) : pres :=
  if has_bad false pat then PFail else
  match printf_pat false pat with
  | None => PCrash
  | Some l =>
      PType (sarrow sstring
        (fold_right sarrow (tuple_of (map conv_sch (filter (fun k => negb (is_star k)) l)))
           (map conv_sch (filter is_star l))))
  end.

(* get_prim_fun_type: SV i is the variable tVar<i>. *)
Definition prim_type (p : prim) : pres :=
  let v0 := SV 0 in let v1 := SV 1 in let v2 := SV 2 in let v3 := SV 3 in
  match p with
  | P_S => PType (sarrow (sarrow v1 (sarrow v2 v0)) (sarrow (sarrow v1 v2) (sarrow v1 v0)))
  | P_K => PType (sarrow v0 (sarrow v1 v0))
  | P_I => PType (sarrow v0 v0)
  | P_C => PType (sarrow (sarrow v1 (sarrow v2 v0)) (sarrow v2 (sarrow v1 v0)))
  | P_B => PType (sarrow (sarrow v2 v0) (sarrow (sarrow v1 v2) (sarrow v1 v0)))
  | P_BPRIME =>
      PType (sarrow (sarrow v3 (sarrow v1 v0)) (sarrow v3 (sarrow (sarrow v2 v1) (sarrow v2 v0))))
  | P_SPRIME =>
      PType (sarrow (sarrow v3 (sarrow v2 v0))
               (sarrow (sarrow v1 v3) (sarrow (sarrow v1 v2) (sarrow v1 v0))))
  | P_CPRIME =>
      PType (sarrow (sarrow v3 (sarrow v2 v0)) (sarrow (sarrow v1 v3) (sarrow v2 (sarrow v1 v0))))
  | P_BSTAR =>
      PType (sarrow (sarrow v3 v0) (sarrow (sarrow v2 v3) (sarrow (sarrow v1 v2) (sarrow v1 v0))))
  | P_Y => PType (sarrow (sarrow v0 v0) v0)
  | P_FST => PType (sarrow (stuple v0 v1) v0)
  | P_SND => PType (sarrow (stuple v0 v1) v1)
  | P_HEAD => PType (sarrow (slist v0) v0)
  | P_TAIL => PType (sarrow (slist v0) (slist v0))
  | P_TUPLE => PType (sarrow v0 (sarrow v1 (stuple v0 v1)))
  | P_CONS => PType (sarrow v0 (sarrow (slist v0) (slist v0)))
  | P_COND => PType (sarrow sbool (sarrow v0 (sarrow v0 v0)))
  | P_CAT => PType (sarrow sstring (sarrow sstring sstring))
  | P_EMPTY => PType (sarrow (slist v0) sbool)
  | P_LOAD => PType (sarrow sstring (sarrow sbool sbool))
  | P_LOAD_PLUGIN => PType (sarrow sstring sstring)
  | P_ERROR => PType (sarrow sstring v0)
  | P_PCATCH => PType (sarrow v0 (sarrow v0 v0))
  | P_CATCH => PType (sarrow v0 (sarrow v0 v0))
  | P_SEQ | P_FSEQ | P_NSEQ => PType (sarrow v1 (sarrow v0 v0))
  | P_IS_CONS => PType (sarrow v0 sbool)
  | P_FORALL => PType (sarrow (sarrow sbool sbool) (sarrow sstring sbool))
  | P_THEREIS => PType (sarrow (sarrow sbool sbool) (sarrow sstring sbool))
  | P_QUANT_FORALL | P_QUANT_THEREIS => PType (sarrow sbool (sarrow sbool sbool))
  | P_IDENTICAL => PType (sarrow v0 (sarrow v0 sbool))
  | P_EQUAL => PType (sarrow v0 (sarrow v0 sbool))
  | P_NOT_EQUAL => PType (sarrow v0 (sarrow v0 sbool))
  | P_CONSTR_EQ => PType (sarrow v0 (sarrow v0 sbool))
  | P_FAIL => PType v0
  | P_PFAIL => PType v0
  | P_PRINT => PType (sarrow sstring svoid)
  | P_DEBUG => PType (sarrow v0 v0)
  | P_STRING_HD => PType (sarrow sstring sstring)
  | P_STRING_TL => PType (sarrow sstring sstring)
  | P_SUC => PType (sarrow sint sint)
  | P_ORD => PType (sarrow sstring sint)
  | P_CHR => PType (sarrow sint sstring)
  | P_EXPLODE => PType (sarrow sstring (slist sstring))
  | P_BOOL2STR => PType (sarrow sint (sarrow sbool sstring))
  | P_INT2STR => PType (sarrow sint sstring)
  | P_TIME => PType (sarrow v0 (stuple v0 sstring))
  | P_BDD_SAVE => PType (sarrow sstring (sarrow (slist sbool) sbool))
  | P_BDD_LOAD => PType (sarrow sstring (slist sbool))
  | P_BDD_REORDER => PType (sarrow sint (stuple sint sint))
  | P_RELPROD_THEREIS | P_RELPROD_FORALL =>
      PType (sarrow sbool (sarrow sbool (sarrow sbool sbool)))
  | P_RVAR => PType (sarrow sstring sbool)
  | P_VAR_ORDER => PType (sarrow (slist sstring) (slist sstring))
  | P_SYSTEM => PType (sarrow sstring sint)
  | P_EVAL => PType (sarrow sstring sbool)
  | P_CACHE => PType (sarrow v0 (sarrow v1 v1))
  | P_STRICT_ARGS => PType (sarrow v0 (sarrow v1 v1))
  | P_IS_TUPLE => PType (sarrow v0 sbool)
  | P_STRICT_TUPLE => PType (sarrow v0 (sarrow v1 (stuple v0 v1)))
  | P_STRICT_CONS => PType (sarrow v0 (sarrow (slist v0) (slist v0)))
  | P_MK_REF_VAR => PType (sarrow v0 (sref v0))
  | P_DEREFERENCE => PType (sarrow (sref v0) v0)
  | P_UPDATE_RVAR => PType (sarrow (sref v0) (sarrow v0 svoid))
  | P_REF_VAR => PType (sref v0)
  | P_WRITE_TO_FILE => PType (sarrow sstring (sarrow sstring svoid))
  | P_PRINTF pat => printf_type pat svoid
  | P_FPRINTF pat => then_arrow sfp (printf_type pat svoid)
  | P_SPRINTF pat => printf_type pat sstring
  | P_EPRINTF pat => printf_type pat v0
  | P_SSCANF pat => sscanf_type pat
  | P_VOID => PType svoid
  | P_FILEFP => PType sfp
  | P_GEN_CATCH => PType (sarrow v0 (sarrow (sarrow sstring v0) v0))
  | P_TCL_EVAL => PType (sarrow (slist sstring) sstring)
  | P_GET_VOSSRC => PType (sarrow sstring sstring)
  | P_UPDATE_VOSSRC => PType (sarrow sstring (sarrow sstring sstring))
  | P_HELP => PType (sarrow sstring sstring)
  | P_SAVE_GRAPH => PType (sarrow sstring (sarrow sstring (sarrow v0 sbool)))
  | P_LOAD_GRAPH => PType (sarrow sstring (sarrow sstring v0))
  | P_EXIT => PType (sarrow sint svoid)
  | P_THEN => PType (sarrow v0 (sarrow (sarrow v0 v1) v1))
  | P_UNTYPE => PType (sarrow v0 v1)
  | P_NAMED_ARG => PType (sarrow v0 (sarrow v1 (sarrow v1 v0)))
  | P_OTHER => PCrash
  end.

(* ---- new nodes ---- *)

Definition new_node (h : heap) (n : tnode) : nat * heap := (length h, h ++ [n]).

(* new_tVar for tVar0 .. tVar3, then the nodes of the type from the inside out.  (Variables that a
   case does not use are made as well; nothing refers to them.) *)
Fixpoint build (base : nat) (t : sch) (h : heap) : nat * heap :=
  match t with
  | SV i => (base + i, h)
  | SC c l =>
      let '(k, h) :=
        (fix loop l h := match l with
                         | [] => ([], h)
                         | a :: l => let '(p, h) := build base a h in
                                     let '(k, h) := loop l h in (p :: k, h)
                         end) l h in
      new_node h (NCon c k)
  end.
Definition prim_vars := 4.
Definition build_prim (t : sch) (h : heap) : nat * heap :=
  build (length h) t (h ++ repeat NVar prim_vars).

(* ---- copies of types: fresh_inst_rec and copy_to_persistent_store_rec ---- *)

(* [m] lists the nodes that have been copied with their copies. *)
Definition memo := list (nat * nat).
Fixpoint assoc (m : memo) (p : nat) : option nat :=
  match m with
  | [] => None
  | (a, b) :: m => if Nat.eqb a p then Some b else assoc m p
  end.
Fixpoint copy (fuel : nat) (src : heap) (p : nat) (m : memo) (dst : heap)
  : option (nat * memo * heap) :=
  match fuel with
  | O => None
  | S fuel =>
      match get_real fuel src p with
      | None => None
      | Some p =>
          match assoc m p with
          | Some q => Some (q, m, dst)
          | None =>
              match nth_error src p with
              | Some NVar => let '(q, dst) := new_node dst NVar in Some (q, (p, q) :: m, dst)
              | Some (NCon c l) =>
                  match (fix loop l m dst :=
                           match l with
                           | [] => Some ([], m, dst)
                           | a :: l =>
                               match copy fuel src a m dst with
                               | None => None
                               | Some (x, m, dst) =>
                                   match loop l m dst with
                                   | None => None
                                   | Some (k, m, dst) => Some (x :: k, m, dst)
                                   end
                               end
                           end) l m dst with
                  | None => None
                  | Some (k, m, dst) =>
                      let '(q, dst) := new_node dst (NCon c k) in Some (q, (p, q) :: m, dst)
                  end
              | _ => None
              end
          end
      end
  end.
Definition copy_type (fuel : nat) (src : heap) (p : nat) (dst : heap) : option (nat * heap) :=
  match copy fuel src p [] dst with Some (q, _, dst) => Some (q, dst) | None => None end.

(* ---- expressions ---- *)

Inductive lit := LInt | LBool | LBexpr | LString.
Definition hint := option nat.
Inductive expr :=
| XLit (h : hint) (l : lit)
| XPrim (h : hint) (p : prim)
| XVar (h : hint) (x : string)
| XGlob (h : hint) (f : nat)         (* USERDEF: the pointer to the type of the function *)
| XNil (h : hint)
| XCons (h : hint) (a b : expr)
| XApp (h : hint) (a b : expr)
| XLam (h : hint) (x : string) (b : expr).

(* The outcome of a step of the type checker. *)
Inductive res (A : Type) :=
| ROk (a : A) (s : tstate)
| RFail (s : tstate)     (* failure(...): the expression is not typable *)
| RCrash                 (* assertion, DIE, NULL dereference *)
| RStuck.                (* bound too small *)
Arguments ROk {A}. Arguments RFail {A}. Arguments RCrash {A}. Arguments RStuck {A}.
Definition M (A : Type) := tstate -> res A.
Definition ret {A} (a : A) : M A := fun s => ROk a s.
Definition bind {A B} (m : M A) (k : A -> M B) : M B := fun s =>
  match m s with
  | ROk a s => k a s
  | RFail s => RFail s
  | RCrash => RCrash
  | RStuck => RStuck
  end.
Definition fail {A} : M A := fun s => RFail s.
Definition crash {A} : M A := fun _ => RCrash.
Declare Scope m_scope.
Notation "x <- m ;; k" := (bind m (fun x => k)) (at level 90, m at level 60, right associativity) : m_scope.
Notation "m ;; k" := (bind m (fun _ => k)) (at level 90, right associativity) : m_scope.
Open Scope m_scope.

Definition set_heap (s : tstate) (h : heap) : tstate := mkT h (t_ctx s).
Definition on_heap {A} (f : heap -> A * heap) : M A := fun s =>
  let '(a, h) := f (t_heap s) in ROk a (set_heap s h).
Definition new (n : tnode) : M nat := on_heap (fun h => new_node h n).
Definition node (p : nat) : M (option tnode) := fun s => ROk (nth_error (t_heap s) p) s.

(* lvars_tbl *)
Definition env := list (string * nat).
Fixpoint find_hash (e : env) (x : string) : option nat :=
  match e with
  | [] => None
  | (y, p) :: e => if String.eqb y x then Some p else find_hash e x
  end.
Fixpoint delete_hash (e : env) (x : string) : env :=
  match e with
  | [] => []
  | (y, p) :: e => if String.eqb y x then e else (y, p) :: delete_hash e x
  end.

Section Infer.
Variable fuel : nat.
Variable gheap : heap.      (* the persistent store *)

Definition unif (p q : nat) : M unit := fun s =>
  match unify fuel s p q with
  | UOk s => ROk tt s
  | UFail s => RFail s
  | UCrash => RCrash
  | UStuck => RStuck
  end.
Definition real (p : nat) : M nat := fun s =>
  match get_real fuel (t_heap s) p with Some q => ROk q s | None => RStuck end.
Definition make_arrow (a b : nat) : M nat :=
  b <- real b ;; a <- real a ;; new (NCon CArrow [a; b]).
Definition make_list (a : nat) : M nat := a <- real a ;; new (NCon CList [a]).
Definition fresh_inst (f : nat) : M nat := fun s =>
  match copy_type fuel gheap f (t_heap s) with
  | None => RStuck
  | Some (q, h) => ROk q (set_heap s h)
  end.
Definition check_hint (h : hint) (p : nat) : M unit :=
  match h with None => ret tt | Some q => unif p q end.
Definition get_prim_fun_type (p : prim) : M nat :=
  match prim_type p with
  | PFail => fail
  | PCrash => crash
  | PType t => on_heap (build_prim t)
  end.

Definition lit_con (l : lit) : con :=
  match l with LInt => CInt | LBool => CBool | LBexpr => CBexpr | LString => CString end.

(* The part of APPLY_ND after the two recursive calls, 2019-2040. *)
Definition arg_and_result (h : hint) (fn arg : nat) : M nat :=
  n <- node fn ;;
  match n with
  | Some (NCon _ (x :: _)) =>
      unif arg x ;;
      fn <- real fn ;;
      n <- node fn ;;
      match n with
      | Some (NCon _ (_ :: r :: _)) => check_hint h r ;; real r
      | _ => crash
      end
  | _ => crash
  end.
Definition apply_types (h : hint) (pl pr : nat) : M nat :=
  fn <- real pl ;;
  arg <- real pr ;;
  n <- node fn ;;
  match n with
  | Some NVar =>
      v <- new NVar ;;
      expected <- make_arrow arg v ;;
      unif fn expected ;;
      fn <- real fn ;;
      arg_and_result h fn arg
  | Some (NCon CArrow _) => arg_and_result h fn arg
  | _ => fail
  end.

(* build_node_type_struct: the type of the node, and lvars_tbl afterwards. *)
Fixpoint infer (e : expr) (tbl : env) : M (nat * env) :=
  match e with
  | XLit h l =>
      p <- new (NCon (lit_con l) []) ;; check_hint h p ;; ret (p, tbl)
  | XPrim h p =>
      p <- get_prim_fun_type p ;; check_hint h p ;; ret (p, tbl)
  | XVar h x =>
      match find_hash tbl x with
      | None => crash
      | Some p => check_hint h p ;; ret (p, tbl)
      end
  | XGlob h f =>
      p <- fresh_inst f ;; check_hint h p ;; p <- real p ;; ret (p, tbl)
  | XNil h =>
      v <- new NVar ;; p <- make_list v ;; check_hint h p ;; ret (p, tbl)
  | XCons h a b =>
      l <- infer a tbl ;;
      r <- infer b (snd l) ;;
      pot <- make_list (fst l) ;;
      unif (fst r) pot ;;
      p <- real (fst r) ;;
      check_hint h p ;;
      p <- real p ;; ret (p, snd r)
  | XApp h a b =>
      l <- infer a tbl ;;
      r <- infer b (snd l) ;;
      p <- apply_types h (fst l) (fst r) ;; ret (p, snd r)
  | XLam h x b =>
      let old := find_hash tbl x in
      let tbl := match old with Some _ => delete_hash tbl x | None => tbl end in
      v <- new NVar ;;
      r <- infer b ((x, v) :: tbl) ;;
      p <- make_arrow v (fst r) ;;
      match find_hash (snd r) x with
      | None => crash
      | Some _ =>
          let tbl := delete_hash (snd r) x in
          let tbl := match old with Some q => (x, q) :: tbl | None => tbl end in
          check_hint h p ;; p <- real p ;; ret (p, tbl)
      end
  end.

(* TypeCheck: the answer is a type in the persistent store (None: the expression is rejected),
   the persistent store and the other store. *)
Definition type_check (e : expr) (s : tstate) : option (option nat * heap * tstate) :=
  match infer e [] (push_ctx s) with
  | ROk (p, _) s1 =>
      match copy_type fuel (t_heap s1) p gheap, pop_ctx true s1 with
      | Some (q, g), Some s2 => Some (Some q, g, s2)
      | _, _ => None
      end
  | RFail s1 =>
      match pop_ctx true s1 with Some s2 => Some (None, gheap, s2) | None => None end
  | _ => None
  end.
End Infer.
