(** * Examples and refutations for printing and scanning *)

From Coq Require Import String Ascii List Bool Arith ZArith Lia.
From Verif Require Import ArbModel InfModel IoModel IoSpec IoText IoThms.
Import ListNotations.
Open Scope list_scope.
Open Scope Z_scope.

Definition txt (s : string) : text := map code (list_ascii_of_string s).

(** A pattern with everything in it, and its arguments. *)
Definition pat1 : list item :=
  [Lit "a"; Dir false false (W 5 []) Ld; Lit "|"; Dir true false (W 6 []) Ld; Lit "|";
   Dir false true (W 5 []) Ld; Lit "|"; Dir false false NoW Lx; Lit "|"; Dir false false NoW Lb;
   Lit "|"; Dir false false (W 4 []) Lb; Lit " "; Dir true false Star Ls; Lit "|";
   Dir false false NoW LB; Lit " "; Dir false false (W 3 []) LS; Pct].
Definition args1 : list value :=
  [VInt (-12); VInt (-34); VInt (-7); VInt 255; VInt (-3); VInt 7; VInt 5; VStr (txt "hey");
   VBool (txt "x&y"); VStrs [txt "a"; txt "bcd"]].
Definition text1 : text := txt "a  -12|-34   |-0007|ff|101|0111 hey  |x&y [  a, bcd]%".

Ltac fmt := match goal with |- formats ?lj ?z ?n ?k ?v ?r => constructor end.

Lemma prints1 : prints pat1 args1 (Some text1).
Proof.
  assert (E : exists o, prints pat1 args1 o /\ o = Some text1).
  { eexists. split.
    - unfold pat1, args1.
      repeat first [ apply p_nil | apply p_lit; [discriminate|] | apply p_pct
             | eapply p_dir; [first [apply t_no | apply t_star; lia | eapply t_w; [lia|constructor|reflexivity|reflexivity]] | constructor |] ].
    - vm_compute. reflexivity. }
  destruct E as (o & P & ->). exact P.
Qed.

Lemma shown1 : show pat1 = "a%5d|%-6d|%05d|%x|%b|%4b %-*s|%B %3S%%"%string.
Proof. reflexivity. Qed.

(** Something that does not fit. *)
Definition pat2 : list item := [Lit "<"; Dir false false (W 2 []) Ld; Lit ">"].
Lemma prints2 : prints pat2 [VInt (-12)] None.
Proof.
  assert (E : exists o, prints pat2 [VInt (-12)] o /\ o = None).
  { eexists. split.
    - unfold pat2.
      repeat first [ apply p_nil | apply p_lit; [discriminate|]
             | eapply p_dir; [eapply t_w; [lia|constructor|reflexivity|reflexivity] | constructor |] ].
    - vm_compute. reflexivity. }
  destruct E as (o & P & ->). exact P.
Qed.

(** A pattern that can be read back. *)
Definition pat3 : list item :=
  [Lit "("; Dir false false NoW Ld; Lit ","; Dir false true (W 1 [2]%nat) Lx; Dir false true (W 3 []) Lo;
   Lit " "; Dir false false NoW Ls; Lit " "; Dir false false NoW Lb; Pct].
Definition args3 : list value := [VInt (-1234567890123); VInt 48879; VInt 8; VStr (txt "x/y%"); VInt 6].
Definition text3 : text := txt "(-1234567890123,00000000beef010 x/y% 0110%".

Lemma prints3 : prints pat3 args3 (Some text3).
Proof.
  assert (E : exists o, prints pat3 args3 o /\ o = Some text3).
  { eexists. split.
    - unfold pat3, args3.
      repeat first [ apply p_nil | apply p_lit; [discriminate|] | apply p_pct
             | eapply p_dir; [first [apply t_no | eapply t_w; [lia|repeat constructor|reflexivity|reflexivity]] | constructor |] ].
    - vm_compute. reflexivity. }
  destruct E as (o & P & ->). exact P.
Qed.

Lemma scans3 : scans pat3 args3.
Proof.
  unfold pat3, args3.
  repeat first [ apply s_nil | apply s_lit | apply s_pct
    | eapply s_int; [reflexivity|discriminate|reflexivity|]
    | eapply s_int; [reflexivity|lia|reflexivity|]
    | eapply s_fixed; [reflexivity|lia|]
    | apply s_str; [vm_compute; repeat constructor|reflexivity|] ].
Qed.

(** ** Refutations *)

(** A text that does not fit into the temporary string is cut without notice. *)
Lemma cut (t : text) : Sprintf "%s" [VStr t] = Done (firstn lim t).
Proof.
  unfold Sprintf. cbn [printf]. change (Ascii.eqb "%" "%") with true. cbv iota.
  unfold prs, strtemp, strappend. rewrite firstn_nil. cbn [app length].
  change (0 <? 0) with false. cbn [andb]. rewrite Z.sub_diag. cbn [Z.to_nat Nat.iter nat_rect length app].
  now rewrite Nat.sub_0_r.
Qed.

Theorem cut_refuted : exists t, prints [Dir false false NoW Ls] [VStr t] (Some t) /\
  Sprintf "%s" [VStr t] = Done (firstn lim t) /\ firstn lim t <> t.
Proof.
  exists (repeat 97 (S lim)). split.
  - assert (E : exists o, prints [Dir false false NoW Ls] [VStr (repeat 97 (S lim))] o /\ o = Some (repeat 97 (S lim))).
    { eexists. split.
      - eapply p_dir; [apply t_no|constructor|apply p_nil].
      - unfold field. cbn [andb Z.ltb Z.compare]. cbn [app both].
        replace (Z.to_nat _) with 0%nat by (rewrite ?app_length; lia). cbn [repeat app]. now rewrite app_nil_r. }
    destruct E as (o & P & ->). exact P.
  - split; [apply cut|]. intros E. apply (f_equal (@length Z)) in E.
    rewrite firstn_length, repeat_length in E. lia.
Qed.

(** Two numbers have one text in a binary field. *)
Theorem binary_refuted : exists z z', z <> z' /\
  Sprintf "%4b" [VInt z] = Sprintf "%4b" [VInt z'] /\ exists t, Sprintf "%4b" [VInt z] = Done t.
Proof. exists (-9), 7. split; [lia|]. split; [reflexivity|]. eexists. vm_compute. reflexivity. Qed.

(** [%b] is two's complement when printing, but not when scanning. *)
Theorem binary_scan_refuted : exists z z' t, Sprintf "%b" [VInt z] = Done t /\
  Sscanf "%b" t [] = Found [VInt z'] /\ z <> z'.
Proof. exists (-3), 5, (txt "101"). repeat split; try reflexivity. lia. Qed.

(** A number in a field filled with spaces is not read back. *)
Theorem spaces_refuted : exists z z' t, Sprintf "%5d" [VInt z] = Done t /\
  Sscanf "%5d" t [] = Found [VInt z'] /\ z <> z'.
Proof. exists 12, 0, (txt "   12"). repeat split; try reflexivity. lia. Qed.

(** Scanning a number finds one where there is none. *)
Theorem no_number_refuted : Sscanf "%d" (txt "abc") [] = Found [VInt 0].
Proof. reflexivity. Qed.

(** Scanning a word of a given width reads past the end of a shorter input, and a hexadecimal
    number is taken to go on after its end, which gives a null pointer. *)
Theorem past_refuted : Sscanf "%10s" (txt "abc") [] = Past.
Proof. reflexivity. Qed.
Theorem hex_refuted : Sscanf "%x:%x" (txt "1a:2b") [] = Null /\ Sscanf "%xg" (txt "1ag") [] = Null.
Proof. split; reflexivity. Qed.

(** [printf] of a pattern without arguments leaves [%%] as it is, [sprintf] does not. *)
Theorem percent_refuted : Sprintf "50%%" [] = Done (txt "50%") /\ Printf "50%%" [] = Done (txt "50%%").
Proof. split; reflexivity. Qed.

(** A negative width is none, unless the number is negative. *)
Theorem star_refuted : Sprintf "%*d" [VInt (-5); VInt 3] = Done (txt "3") /\
  Sprintf "%*d" [VInt (-5); VInt (-3)] = Failed.
Proof. split; vm_compute; reflexivity. Qed.
