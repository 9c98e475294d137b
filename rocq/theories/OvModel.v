(* Model of the resolution of overloaded functions in src/bin/fl/typecheck.c: find_core_type (1566),
   Type_eq (2404), make_implicit_call (2144), nbr_succ_overload_res (2189), Find_Overload_Choice
   (2157), and the USERDEF and APPLY_ND cases of build_node_type_struct (2004) for the calls that
   make_implicit_call makes.

   The stores of types are those of TyModel.v and InfModel.v.  Simplifications.
   - A function is its number in a table; make_implicit_call yields a spine of functions, so the
     call of an alternative is given by the alternative alone.
   - to_be_resolved is a list of overloaded functions with the pointers to their types.
   - The replacements are kept as the positions of the chosen alternatives in overload_list.
   - Type_eq compares the numbers that were given to two type variables for printing; here its
     answer for two variables is any function.  Base types are single nodes in C and are compared
     by their address; here by their constructor.
   - closed is TRUE in the only call of nbr_succ_overload_res, so the case for open_overload is
     left out. *)
From Coq Require Import String List Bool Arith.
From Verif Require Import TyModel InfModel.
Import ListNotations.
Open Scope list_scope.
Open Scope m_scope.

(* fn_rec, as far as it matters here.  [fn_type] points into the persistent store. *)
Record fn := mkFn {
  fn_type : nat;
  fn_impl : list nat;       (* implicit_args: the overloaded functions that are passed *)
  fn_over : bool;           (* overload *)
  fn_alts : list nat        (* overload_list *)
}.

(* A node of to_be_resolved: the function and the pointer to the type of the node. *)
Definition occ := (nat * nat)%type.

(* The answer of nbr_succ_overload_res: no solution, with the function that is blamed; one
   solution, with the replacements; more. *)
Inductive answer :=
| ANone (f : nat)
| AOne (l : list nat)
| AMany (n : nat).

(* typecheck.h: MAX_OVERLOAD_RESOLUTION_DEPTH is the bound in the code; here a parameter. *)
Section Overload.
Variable fuel : nat.
Variable gheap : heap.
Variable fns : list fn.
Variable veq : tstate -> nat -> nat -> bool.

(* find_core_type: the indirections are not followed. *)
Fixpoint find_core_type (k p : nat) : option nat :=
  match k with
  | O => Some p
  | S k => match nth_error gheap p with
           | Some (NCon _ (_ :: r :: _)) => find_core_type k r
           | _ => None
           end
  end.

Definition eq_list (eq : nat -> nat -> option bool) :=
  fix loop (k1 k2 : list nat) : option bool :=
    match k1, k2 with
    | [], [] => Some true
    | a :: k1, b :: k2 =>
        match eq a b with
        | Some true => loop k1 k2
        | o => o
        end
    | _, _ => Some false
    end.
Fixpoint type_eq (n : nat) (ve : nat -> nat -> bool) (h : heap) (p q : nat) : option bool :=
  match n with
  | O => None
  | S n =>
      if Nat.eqb p q then Some true else
      match get_real n h p, get_real n h q with
      | Some p, Some q =>
          match nth_error h p, nth_error h q with
          | Some NVar, Some NVar => Some (ve p q)
          | Some (NCon c1 k1), Some (NCon c2 k2) =>
              if con_eqb c1 c2 then eq_list (type_eq n ve h) k1 k2 else Some false
          | Some _, Some _ => Some false
          | _, _ => None
          end
      | _, _ => None
      end
  end.

(* Type_eq(alt_type, cur_type) || unify(TRUE, alt_type, cur_type) *)
Definition matches (alt cur : nat) : M bool := fun s =>
  match type_eq fuel (veq s) (t_heap s) alt cur with
  | None => RStuck
  | Some true => ROk true s
  | Some false =>
      match unify fuel s alt cur with
      | UOk s => ROk true s
      | UFail s => ROk false s
      | UCrash => RCrash
      | UStuck => RStuck
      end
  end.
(* if( !unify(...) ) DIE(...) *)
Definition must_unify (p q : nat) : M unit := fun s =>
  match unify fuel s p q with
  | UOk s => ROk tt s
  | UFail _ => RCrash
  | UCrash => RCrash
  | UStuck => RStuck
  end.
Definition push : M unit := fun s => ROk tt (push_ctx s).
Definition pop : M unit := fun s =>
  match pop_ctx true s with Some s => ROk tt s | None => RCrash end.

(* build_node_type_struct on a function *)
Definition build_fun (f : nat) (todo : list occ) : M (nat * list occ) :=
  match nth_error fns f with
  | None => crash
  | Some F =>
      p <- fresh_inst fuel gheap (fn_type F) ;;
      p <- real fuel p ;;
      ret (p, if fn_over F then (f, p) :: todo else todo)
  end.
(* build_node_type_struct on make_implicit_call(iargs, g) *)
Fixpoint build_args (p : nat) (ds : list nat) (todo : list occ) : M (nat * list occ) :=
  match ds with
  | [] => ret (p, todo)
  | d :: ds =>
      q <- build_fun d todo ;;
      p <- apply_types fuel None p (fst q) ;;
      build_args p ds (snd q)
  end.
Definition build_call (g : nat) (todo : list occ) : M (nat * list occ) :=
  match nth_error fns g with
  | None => crash
  | Some G =>
      p <- build_fun g todo ;;
      build_args (fst p) (fn_impl G) (snd p)
  end.

(* One turn of the loop over the alternatives of f, 2220-2270: how many solutions there are with the
   alternative g (none, if its type does not match). *)
Definition one_alt (sub : list occ -> M answer) (f cur : nat) (rest : list occ) (g : nat) : M answer :=
  match nth_error fns g with
  | None => crash
  | Some G =>
  match find_core_type (length (fn_impl G)) (fn_type G) with
  | None => crash
  | Some c =>
      alt <- fresh_inst fuel gheap c ;;
      push ;;
      b <- matches alt cur ;;
      if (b : bool) then
        nw <- build_call g rest ;;
        must_unify (fst nw) cur ;;
        a <- sub (snd nw) ;;
        pop ;;
        ret a
      else
        pop ;;
        ret (ANone f)
  end
  end.
(* The loop: [i] is the position of the next alternative, [found] is what is known of the
   alternatives before it (cnt, replacement_node and rem_replacements). *)
Fixpoint try_alts (sub : list occ -> M answer) (f cur : nat) (rest : list occ)
    (i : nat) (alts : list nat) (found : option (list nat)) : M answer :=
  match alts with
  | [] => ret (match found with None => ANone f | Some l => AOne l end)
  | g :: alts =>
      a <- one_alt sub f cur rest g ;;
      match a, found with
      | ANone _, _ => try_alts sub f cur rest (S i) alts found
      | AOne l, None => try_alts sub f cur rest (S i) alts (Some (i :: l))
      | AOne _, Some _ => ret (AMany 2)
      | AMany n, None => ret (AMany n)
      | AMany n, Some _ => ret (AMany (S n))
      end
  end.

(* nbr_succ_overload_res; [depth] is what is left of MAX_OVERLOAD_RESOLUTION_DEPTH.  The result
   RFail is "Infinite loop in resolution". *)
Fixpoint nbr_succ (depth : nat) (todo : list occ) : M answer :=
  match todo with
  | [] => ret (AOne [])
  | (f, p) :: rest =>
      match depth with
      | O => fail
      | S depth =>
          match nth_error fns f with
          | None => crash
          | Some F =>
              cur <- real fuel p ;;
              try_alts (nbr_succ depth) f cur rest 0 (fn_alts F) None
          end
      end
  end.
End Overload.

(* Find_Overload_Choice.  Here all types are in one store: the types of functions are unified
   without a copy. *)
Section Choice.
Variable fuel : nat.
Variable fns : list fn.

Definition quiet_unify (p q : nat) : M bool := fun s =>
  match unify fuel s p q with
  | UOk s => ROk true s
  | UFail s => ROk false s
  | UCrash => RCrash
  | UStuck => RStuck
  end.
Definition pop_keep : M unit := fun s =>
  match pop_ctx false s with Some s => ROk tt s | None => RCrash end.
Fixpoint choices (type : nat) (alts : list nat) (found : list nat) : M (list nat) :=
  match alts with
  | [] => ret found
  | g :: alts =>
      match nth_error fns g with
      | None => crash
      | Some G =>
          push ;;
          b <- quiet_unify type (fn_type G) ;;
          pop ;;
          choices type alts (if b then g :: found else found)
      end
  end.
Definition find_overload_choice (f : nat) (type : option nat) : M (option nat) :=
  match type, nth_error fns f with
  | None, _ => ret (Some f)
  | Some _, None => crash
  | Some type, Some F =>
      push ;;
      b <- quiet_unify type (fn_type F) ;;
      if b then
        pop_keep ;;
        if fn_over F then
          l <- choices type (fn_alts F) [] ;;
          ret (Some (match l with [g] => g | _ => f end))
        else ret (Some f)
      else pop ;; ret None
  end.
End Choice.
