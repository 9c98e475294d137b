(* Property theorems: formatted printing and scanning (C54). *)
From Coq Require Import String Ascii List Bool Arith ZArith.
From Verif Require Import InfModel IoModel IoSpec IoText IoThms IoEx.
Import ListNotations.
Open Scope Z_scope.

(* C54: the loop that types a pattern and the loop that prints with it agree: arguments of the
   types that the type checker gives are all taken, each as what it is, and their number is the
   arity of the primitive. *)
Theorem C54_print_types : forall pat args res, arrow_free res ->
  printf_type pat res = PType (fold_right sarrow res (map type_of args)) ->
  Sprintf pat args <> Bad /\ arity false pat = length args.
Proof. exact typed_prints. Qed.
Print Assumptions C54_print_types.

(* C54: the same for scanning: the widths are taken as arguments, no unsupported conversion is
   met, and what is delivered has the type of the result. *)
Theorem C54_scan_types : forall pat args input r, arrow_free r ->
  sscanf_type pat = PType (sarrow sstring (fold_right sarrow r (map type_of args))) ->
  Sscanf pat input args <> SBad /\ Sscanf pat input args <> Unsupported /\
  forall vs, Sscanf pat input args = Found vs -> r = tuple_of (map type_of vs).
Proof. exact typed_scans. Qed.
Print Assumptions C54_scan_types.

(* C54: printing gives the text that the pattern stands for, and fails if and only if some argument
   does not fit into its field; for texts that fit into the temporary string. *)
Theorem C54_print : forall l args t, prints l args (Some t) -> Z.of_nat (length t) <= 130000 ->
  Sprintf (show l) args = Done t.
Proof. intros l args t P L. apply (sprints l args (Some t) P); [reflexivity|]. now apply lim_fits. Qed.
Print Assumptions C54_print.

Theorem C54_print_fails : forall l args, prints l args None -> Sprintf (show l) args = Failed.
Proof. intros l args P. now apply (sprints l args None P). Qed.
Print Assumptions C54_print_fails.

(* C54: what was printed is read back, for patterns whose conversions end where they should. *)
Theorem C54_roundtrip : forall l args t, scans l args -> prints l args (Some t) ->
  Z.of_nat (length t) <= 130000 -> Sprintf (show l) args = Done t /\ Sscanf (show l) t [] = Found args.
Proof. intros l args t S P L. split; [now apply C54_print|]. now apply reads_back, lim_fits. Qed.
Print Assumptions C54_roundtrip.

(* C54: not so: texts of more than 130000 characters are cut without notice. *)
Theorem C54_cut_refuted : exists t, prints [Dir false false NoW Ls] [VStr t] (Some t) /\
  Sprintf "%s" [VStr t] = Done (firstn (Z.to_nat 130000) t) /\ firstn (Z.to_nat 130000) t <> t.
Proof. rewrite <- lim_is. exact cut_refuted. Qed.
Print Assumptions C54_cut_refuted.

(* C54: not so: in a binary field two numbers have one text. *)
Theorem C54_binary_refuted : exists z z', z <> z' /\
  Sprintf "%4b" [VInt z] = Sprintf "%4b" [VInt z'] /\ exists t, Sprintf "%4b" [VInt z] = Done t.
Proof. exact binary_refuted. Qed.
Print Assumptions C54_binary_refuted.

(* C54: not so: negative numbers in binary, and numbers after spaces, are read back as others. *)
Theorem C54_readback_refuted :
  (exists z z' t, Sprintf "%b" [VInt z] = Done t /\ Sscanf "%b" t [] = Found [VInt z'] /\ z <> z') /\
  (exists z z' t, Sprintf "%5d" [VInt z] = Done t /\ Sscanf "%5d" t [] = Found [VInt z'] /\ z <> z').
Proof. exact (conj binary_scan_refuted spaces_refuted). Qed.
Print Assumptions C54_readback_refuted.

(* C54: not so: scanning finds the number 0 in a text without digits, reads past the end of the
   input when a width is larger than what is left, and makes a null pointer of the number when a
   hexadecimal number is followed by ':' or 'g'. *)
Theorem C54_scan_refuted :
  Sscanf "%d" (txt "abc") [] = Found [VInt 0] /\ Sscanf "%10s" (txt "abc") [] = Past /\
  Sscanf "%x:%x" (txt "1a:2b") [] = Null /\ Sscanf "%xg" (txt "1ag") [] = Null.
Proof. exact (conj no_number_refuted (conj past_refuted hex_refuted)). Qed.
Print Assumptions C54_scan_refuted.

(* C54: not so: without arguments printf leaves "%%" as it is; a negative width given by an argument
   makes the printing of a negative number fail. *)
Theorem C54_printf_refuted :
  Sprintf "50%%" [] = Done (txt "50%") /\ Printf "50%%" [] = Done (txt "50%%") /\
  Sprintf "%*d" [VInt (-5); VInt 3] = Done (txt "3") /\
  Sprintf "%*d" [VInt (-5); VInt (-3)] = Failed.
Proof. exact (conj (proj1 percent_refuted) (conj (proj2 percent_refuted) star_refuted)). Qed.
Print Assumptions C54_printf_refuted.

(* ---- Examples: the hypotheses are met ---- *)
Example C54_ex_print : show pat1 = "a%5d|%-6d|%05d|%x|%b|%4b %-*s|%B %3S%%"%string /\
  prints pat1 args1 (Some text1) /\ Sprintf (show pat1) args1 = Done text1.
Proof. split; [exact shown1|]. split; [exact prints1|vm_compute; reflexivity]. Qed.
Example C54_ex_fails : prints pat2 [VInt (-12)] None /\ Sprintf "<%2d>" [VInt (-12)] = Failed.
Proof. exact (conj prints2 eq_refl). Qed.
Example C54_ex_back : show pat3 = "(%d,%012x%03o %s %b%%"%string /\ scans pat3 args3 /\
  prints pat3 args3 (Some text3) /\ Sscanf (show pat3) text3 [] = Found args3.
Proof. repeat split; try exact scans3; try exact prints3; vm_compute; reflexivity. Qed.
Example C54_ex_types :
  printf_type (show pat1) sstring = PType (fold_right sarrow sstring (map type_of args1)) /\
  arrow_free sstring /\
  sscanf_type "%*d %s" = PType (sarrow sstring (fold_right sarrow (stuple sint sstring) (map type_of [VInt 2]))) /\
  Sscanf "%*d %s" (txt "12 ab") [VInt 2] = Found [VInt 12; VStr (txt "ab")] /\
  Sscanf "%*d %s" (txt "123 ab") [VInt 2] = Mismatch.
Proof. repeat split; try discriminate; vm_compute; reflexivity. Qed.
