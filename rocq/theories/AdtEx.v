(* Nested abstract types. *)
From Coq Require Import List.
From Verif Require Import AdtSpec.
Import ListNotations.

Definition program : items :=
  Define 1 10 (Define 2 20
    (Abstype (Define 1 11 (Define 3 31 (Abstype (Define 3 32 (Define 4 42 Done)) [4]
       (Define 4 43 (Define 2 22 Done))))) [2; 4]
    (Define 5 50 Done))).
