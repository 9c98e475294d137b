(* Model of the type that an overloaded function gets: find_common_typelist (typecheck.c 384),
   find_common_type_rec (404), Get_common_type (431), and of the lists of alternatives in symbol.c:
   InsertOverloadDef (851) and AddToOpenOverloadDef (886).

   Simplifications.  All types are in the persistent store, and copying a type into that store
   allocates at its end.  A list of arguments is a list of pointers; that find_common_typelist
   returns one of its arguments itself is kept as two flags.  Type_eq compares the numbers that two
   type variables have been given for printing; here its answer for two variables is any function
   of the store, as in OvModel.v.  That an alternative is listed by Add_To_OverloadList at the front
   is not modelled: a list of alternatives is given in the order of overload_list. *)
From Coq Require Import String List Bool Arith.
From Verif Require Import TyModel InfModel OvModel.
Import ListNotations.
Open Scope list_scope.

Section Common.
Variable fuel : nat.
Variable veq : heap -> nat -> nat -> bool.

(* find_common_typelist: the list, and whether it is the first or the second one itself.  The rest
   of the list is done first. *)
Definition common_list (com : nat -> nat -> heap -> option (nat * heap)) :=
  fix loop (k1 k2 : list nat) (h : heap) : option (list nat * (bool * bool) * heap) :=
    match k1, k2 with
    | [], [] => Some ([], (true, true), h)
    | a :: k1, b :: k2 =>
        match loop k1 k2 h with
        | None => None
        | Some (l, (s1, s2), h) =>
            match com a b h with
            | None => None
            | Some (c, h) => Some (c :: l, (s1 && Nat.eqb c a, s2 && Nat.eqb c b), h)
            end
        end
    | _, _ => None
    end.

(* find_common_type_rec *)
Fixpoint common (n : nat) (p q : nat) (h : heap) : option (nat * heap) :=
  match n with
  | O => None
  | S n =>
      match get_real fuel h p, get_real fuel h q with
      | Some p, Some q =>
          match type_eq fuel (veq h) h p q with
          | None => None
          | Some true => Some (p, h)
          | Some false =>
              match nth_error h p, nth_error h q with
              | Some (NCon CArrow k1), Some (NCon CArrow k2) =>
                  match common_list (common n) k1 k2 h with
                  | None => None
                  | Some (l, (s1, s2), h) =>
                      if (s1 : bool) then Some (p, h)
                      else if (s2 : bool) then Some (q, h)
                      else Some (new_node h (NCon CArrow l))
                  end
              | Some NVar, Some _ => Some (p, h)
              | Some _, Some NVar => Some (q, h)
              | Some _, Some _ => Some (new_node h NVar)
              | _, _ => None
              end
          end
      | _, _ => None
      end
  end.

(* The loop of Get_common_type. *)
Fixpoint summary (p : nat) (cores : list nat) (h : heap) : option (nat * heap) :=
  match cores with
  | [] => Some (p, h)
  | c :: cores =>
      match common fuel p c h with
      | None => None
      | Some (p, h) => summary p cores h
      end
  end.
(* Get_common_type; [cores] are the types find_core_type gives for the alternatives. *)
Definition get_common_type (dflt : option nat) (cores : list nat) (h : heap) : option (nat * heap) :=
  match cores with
  | [] => match dflt with
          | None => Some (new_node h NVar)
          | Some t => Some (t, h)
          end
  | c :: _ =>
      match summary (match dflt with None => c | Some t => t end) cores h with
      | None => None
      | Some (p, h) => copy_type fuel h p h
      end
  end.

(* InsertOverloadDef: the new function is the last one of the table. *)
Fixpoint core_types (h : heap) (fns : list fn) (alts : list nat) : option (list nat) :=
  match alts with
  | [] => Some []
  | g :: alts =>
      match nth_error fns g with
      | None => None
      | Some G =>
          match find_core_type h (length (fn_impl G)) (fn_type G), core_types h fns alts with
          | Some c, Some l => Some (c :: l)
          | _, _ => None
          end
      end
  end.
Definition insert_overload (dflt : option nat) (alts : list nat) (fns : list fn) (h : heap)
  : option (list fn * heap) :=
  match core_types h fns alts with
  | None => None
  | Some cores =>
      match get_common_type dflt cores h with
      | None => None
      | Some (t, h) => Some (fns ++ [mkFn t [] true alts], h)
      end
  end.
End Common.

(* AddToOpenOverloadDef, for a function that is an open_overload: only the list of alternatives
   changes. *)
Fixpoint add_open (f : nat) (alts : list nat) (fns : list fn) : list fn :=
  match fns, f with
  | [], _ => []
  | F :: fns, O => mkFn (fn_type F) (fn_impl F) (fn_over F) (fn_alts F ++ alts) :: fns
  | F :: fns, S f => F :: add_open f alts fns
  end.
