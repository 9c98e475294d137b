(* What the string functions should compute. *)
From Coq Require Import ZArith List Bool Ascii.
From Verif Require Import TextModel.
Import ListNotations.
Open Scope list_scope.

(* No NUL inside. *)
Definition clean (s : chars) : Prop := ~ In NUL s.

(* n is in h, i characters after its start; and at no earlier, at no later place. *)
Definition at_place (h n : chars) (i : nat) : Prop := exists a b, h = a ++ n ++ b /\ length a = i.
Definition first_place (h n : chars) (i : nat) : Prop :=
  at_place h n i /\ forall j, (j < i)%nat -> ~ at_place h n j.
Definition last_place (h n : chars) (i : nat) : Prop :=
  at_place h n i /\ forall j, (i < j)%nat -> ~ at_place h n j.

Definition spaces (s : chars) : Prop :=
  Forall (fun c => In c (map ascii_of_nat [9; 10; 11; 12; 13; 32]%nat)) s.
(* Neither starts nor ends with a space. *)
Definition bare (s : chars) : Prop :=
  forall c, spaces [c] -> (forall r, s <> c :: r) /\ (forall r, s <> r ++ [c]).

Fixpoint join (sep : chars) (l : list chars) : chars :=
  match l with
  | [] => []
  | [s] => s
  | s :: l => s ++ sep ++ join sep l
  end.
(* Each piece ends at the first place of sep. *)
Fixpoint cut_at (sep : chars) (l : list chars) : Prop :=
  match l with
  | [] => False
  | [s] => forall i, ~ at_place s sep i
  | s :: l => first_place (s ++ sep ++ join sep l) sep (length s) /\ cut_at sep l
  end.

(* Elements of Tcl lists: words, and texts with balanced braces in braces. *)
Definition plain (c : ascii) : Prop :=
  c <> NUL /\ c <> " "%char /\ c <> "\"%char /\ c <> "{"%char /\ c <> "}"%char.
Inductive balanced : chars -> Prop :=
| bal_nil : balanced []
| bal_char c s : plain c \/ c = " "%char -> balanced s -> balanced (c :: s)
| bal_braces s t : balanced s -> balanced t -> balanced ("{"%char :: s ++ "}"%char :: t).
Inductive element : chars -> chars -> Prop :=
| el_word e : e <> [] -> Forall plain e -> element e e
| el_braces e : balanced e -> element e ("{"%char :: e ++ ["}"%char]).
