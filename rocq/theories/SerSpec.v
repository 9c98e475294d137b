(* What it means for a loaded graph to be the saved graph. *)
From Coq Require Import ZArith List Ascii Bool.
From Verif Require Import SerModel.
Import ListNotations.
Open Scope Z_scope.

(* Same constructor and same data; children related by R, reference variables by V, formulas by
   B and bexprs by E.  A cache is a cache, whatever its number: its contents are not part of the
   value of the graph. *)
Inductive node_rel (R : ptr -> ptr -> Prop) (V B E : Z -> Z -> Prop) : node -> node -> Prop :=
| NR_app : forall a b a' b', R a a' -> R b b' -> node_rel R V B E (NApp a b) (NApp a' b')
| NR_nil : node_rel R V B E NNil NNil
| NR_cons : forall a b a' b', R a a' -> R b b' -> node_rel R V B E (NCons a b) (NCons a' b')
| NR_int : forall z, node_rel R V B E (NInt z) (NInt z)
| NR_text : forall k s, node_rel R V B E (NText k s) (NText k s)
| NR_bool : forall f f', B f f' -> node_rel R V B E (NBool f) (NBool f')
| NR_bexpr : forall e e', E e e' -> node_rel R V B E (NBexpr e) (NBexpr e')
| NR_bv : forall l l', Forall2 B l l' -> node_rel R V B E (NBv l) (NBv l')
| NR_file : forall s, node_rel R V B E (NFile s) (NFile s)
| NR_ref : forall r r', V r r' -> node_rel R V B E (NRef r) (NRef r')
| NR_cache : forall c c', node_rel R V B E (NCache c) (NCache c')
| NR_extapi : forall f, node_rel R V B E (NExtapi f) (NExtapi f)
| NR_prim : forall f, node_rel R V B E (NPrim f) (NPrim f).

Definition one_to_one {A C} (R : A -> C -> Prop) : Prop :=
  (forall p q q', R p q -> R p q' -> q = q') /\ (forall p p' q, R p q -> R p' q -> p = p').

(* A one-to-one correspondence of nodes and one of reference variables, taking root to root and
   respecting what the nodes and the variables hold. *)
Definition same_graph (B E : Z -> Z -> Prop)
  (h : ptr -> option node) (refs : Z -> option ptr) (root : ptr)
  (h' : ptr -> option node) (refs' : Z -> option ptr) (root' : ptr) : Prop :=
  exists (R : ptr -> ptr -> Prop) (V : Z -> Z -> Prop),
    R root root' /\ one_to_one R /\ one_to_one V
    /\ (forall p q, R p q -> exists n m, h p = Some n /\ h' q = Some m /\ node_rel R V B E n m)
    /\ (forall r r', V r r' -> exists c c', refs r = Some c /\ refs' r' = Some c' /\ R c c').

(* The graph from p: the nodes reached through children and reference variables. *)
Inductive edge (h : ptr -> option node) (refs : Z -> option ptr) : ptr -> ptr -> Prop :=
| E_app1 : forall p a b, h p = Some (NApp a b) -> edge h refs p a
| E_app2 : forall p a b, h p = Some (NApp a b) -> edge h refs p b
| E_cons1 : forall p a b, h p = Some (NCons a b) -> edge h refs p a
| E_cons2 : forall p a b, h p = Some (NCons a b) -> edge h refs p b
| E_ref : forall p r c, h p = Some (NRef r) -> refs r = Some c -> edge h refs p c.
Inductive reach (h : ptr -> option node) (refs : Z -> option ptr) (p : ptr) : ptr -> Prop :=
| R_here : reach h refs p p
| R_step : forall a b, reach h refs p a -> edge h refs a b -> reach h refs p b.

(* A finite heap without dangling pointers. *)
Definition closed (h : ptr -> option node) (refs : Z -> option ptr) (dom : list ptr) : Prop :=
  forall p, In p dom ->
    (exists n, h p = Some n /\ forall r, n = NRef r -> exists c, refs r = Some c)
    /\ forall q, edge h refs p q -> In q dom.

(* What can be saved at all. *)
Definition savable (n : node) : Prop :=
  match n with NObj _ => False | NFile s => In s std_streams | _ => True end.

(* What is read back as it was. *)
Definition text_ok (s : chars) : Prop := ~ In "000"%char s /\ Z.of_nat (length s) <= 129999.
Definition faithful (n : node) : Prop :=
  match n with
  | NText k s => k <> KVar /\ text_ok s
  | NFile s => text_ok s
  | NInt z => Z.of_nat (length (show_int z)) <= 129999
  | NBv (a :: b :: _) => a <> b
  | _ => True
  end.

(* The session into which the graph is loaded. *)
Definition session_ok (s : session) : Prop :=
  (forall a, (s_next s <= a)%positive -> s_heap s a = None)
  /\ (forall r, s_nrefs s <= r -> s_refs s r = None).
