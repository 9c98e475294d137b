(* Calls of the string functions. *)
From Coq Require Import ZArith String List Bool Ascii.
From Verif Require Import TextModel TextSpec.
Import ListNotations.
Open Scope list_scope.

Definition txt (s : string) : chars := list_ascii_of_string s.
Definition junk1 : list ascii := txt "one" ++ [NUL].
Definition junk2 : list ascii := txt "two" ++ [NUL].

Example text_ex_ends :
  lastn junk1 (txt "signal") 3 = Ok (txt "nal") /\ butlastn junk1 (txt "signal") 2 = Ok (txt "sign") /\
  butfirstn (txt "signal") 4 = Ok (txt "al") /\ butfirstn (txt "signal") 7 = Fail.
Proof. vm_compute. auto. Qed.
Example text_ex_substr :
  substr junk1 (txt "signal") 2 3 = Ok (txt "ign") /\ substr junk1 (txt "signal") 3 (-1) = Ok (txt "gnal") /\
  substr junk1 (txt "signal") 7 1 = Ok [] /\ substr junk1 (txt "signal") 5 3 = Fail.
Proof. vm_compute. auto. Qed.
Example text_ex_find :
  position (txt "abcabc") (txt "ca") = 3%Z /\ position (txt "abcabc") (txt "cb") = 0%Z /\
  is_substr (txt "ca") (txt "abcabc") = true /\ is_prefix (txt "abc") (txt "abcabc") = true /\
  is_suffix (txt "cabc") (txt "abcabc") = Ok true /\ is_suffix (txt "b") (txt "abc") = Ok false.
Proof. vm_compute. repeat split; reflexivity. Qed.
Example text_ex_trim :
  trim (txt "  a b  ") = txt "a b" /\ trim (txt "   ") = [] /\
  gen_trim junk1 (txt "<") (txt ">") (txt "x<a>b>y") = Ok (txt "a>b") /\
  gen_trim junk1 (txt "<") (txt ">") (txt "x>a<b") = Fail.
Proof. vm_compute. auto. Qed.
Example text_ex_split :
  split (txt "a,b,,c") (txt ",") = Ok [txt "a"; txt "b"; []; txt "c"] /\
  split (txt "a,") (txt ",") = Ok [txt "a"; []] /\ split (txt "ab") [] = Ok [txt "a"; txt "b"] /\
  cluster junk1 (txt "abcdef") 2 = Ok [txt "ab"; txt "cd"; txt "ef"] /\ cluster junk1 (txt "abc") 2 = Fail /\
  implode 5 [txt "ab"; txt "cde"] = Ok (txt "abcde") /\ implode 4 [txt "ab"; txt "cde"] = Fail.
Proof. vm_compute. repeat split; reflexivity. Qed.
Example text_ex_tcl :
  tcl2list junk1 (txt "a {b {c d}} {} ef") = Ok [txt "a"; txt "b {c d}"; []; txt "ef"].
Proof. vm_compute. reflexivity. Qed.
Ltac plain_char := repeat split; discriminate.
Example text_ex_element :
  Forall2 element [txt "a"; txt "b {c d}"; []; txt "ef"] [txt "a"; txt "{b {c d}}"; txt "{}"; txt "ef"].
Proof.
  constructor; [apply el_word; [discriminate|repeat (constructor; [plain_char|]); constructor]|].
  constructor.
  { apply (el_braces (txt "b {c d}")). apply bal_char; [left; plain_char|].
    apply bal_char; [right; reflexivity|].
    apply (bal_braces (txt "c d") []); [|constructor].
    apply bal_char; [left; plain_char|]. apply bal_char; [right; reflexivity|].
    apply bal_char; [left; plain_char|constructor]. }
  constructor; [apply (el_braces []); constructor|].
  constructor; [apply el_word; [discriminate|repeat (constructor; [plain_char|]); constructor]|]. constructor.
Qed.
