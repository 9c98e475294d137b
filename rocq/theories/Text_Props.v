(* C62: the string functions of voss_strings.c. *)
From Coq Require Import ZArith String List Bool Ascii.
From Verif Require Import TextModel TextSpec TextThms TextEx.
Import ListNotations.
Open Scope list_scope.

(* C62: prefix, suffix, part, and the first place of a part. *)
Theorem C62_find : forall p s,
  (is_prefix p s = true <-> exists r, s = p ++ r) /\
  (clean s -> exists b, is_suffix p s = Ok b /\ (b = true <-> exists r, s = r ++ p)) /\
  (is_substr p s = true <-> exists a b, s = a ++ p ++ b) /\
  ((position s p = 0%Z /\ (forall i, ~ at_place s p i)) \/
   exists i, position s p = (1 + Z.of_nat i)%Z /\ first_place s p i).
Proof.
  intros p s. exact (conj (prefix_ok p s) (conj (suffix_ok p s) (conj (substr_test_ok p s) (position_ok s p)))).
Qed.
Print Assumptions C62_find.
Example C62_ex_find :
  position (txt "abcabc") (txt "ca") = 3%Z /\ position (txt "abcabc") (txt "cb") = 0%Z /\
  is_substr (txt "ca") (txt "abcabc") = true /\ is_prefix (txt "abc") (txt "abcabc") = true /\
  is_suffix (txt "cabc") (txt "abcabc") = Ok true /\ is_suffix (txt "b") (txt "abc") = Ok false.
Proof. exact text_ex_find. Qed.

(* C62: the last n characters and the others, for n not negative, whatever is in the buffer. *)
Theorem C62_ends : forall junk s n, clean s -> (0 <= n)%Z ->
  exists t u, lastn junk s n = Ok t /\ butlastn junk s n = Ok u /\ s = u ++ t /\
    strlen t = Z.min n (strlen s).
Proof. exact ends_ok. Qed.
Print Assumptions C62_ends.
Theorem C62_butfirst : forall s n, clean s -> (0 <= n)%Z ->
  ((n <= strlen s)%Z /\ exists a t, butfirstn s n = Ok t /\ s = a ++ t /\ strlen a = n) \/
  ((strlen s < n)%Z /\ butfirstn s n = Fail).
Proof. exact butfirstn_ok. Qed.
Print Assumptions C62_butfirst.
Example C62_ex_ends :
  lastn junk1 (txt "signal") 3 = Ok (txt "nal") /\ butlastn junk1 (txt "signal") 2 = Ok (txt "sign") /\
  butfirstn (txt "signal") 4 = Ok (txt "al") /\ butfirstn (txt "signal") 7 = Fail.
Proof. exact text_ex_ends. Qed.

(* C62: substr, where loc + cnt is in range. *)
Theorem C62_substr : forall junk s loc cnt, clean s -> (1 <= loc)%Z -> (loc + cnt <= 2147483647)%Z ->
  ((strlen s < loc)%Z /\ substr junk s loc cnt = Ok []) \/
  ((loc <= strlen s)%Z /\ (cnt < 0)%Z /\
     exists a t, substr junk s loc cnt = Ok t /\ s = a ++ t /\ strlen a = (loc - 1)%Z) \/
  ((loc <= strlen s)%Z /\ (0 <= cnt)%Z /\ (loc + cnt - 1 <= strlen s)%Z /\
     exists a t b, substr junk s loc cnt = Ok t /\ s = a ++ t ++ b /\ strlen a = (loc - 1)%Z /\ strlen t = cnt) \/
  ((loc <= strlen s)%Z /\ (0 <= cnt)%Z /\ (strlen s < loc + cnt - 1)%Z /\ substr junk s loc cnt = Fail).
Proof. exact substr_ok. Qed.
Print Assumptions C62_substr.
Example C62_ex_substr :
  substr junk1 (txt "signal") 2 3 = Ok (txt "ign") /\ substr junk1 (txt "signal") 3 (-1) = Ok (txt "gnal") /\
  substr junk1 (txt "signal") 7 1 = Ok [] /\ substr junk1 (txt "signal") 5 3 = Fail.
Proof. exact text_ex_substr. Qed.

(* C62: trim removes the spaces at both ends and nothing else. *)
Theorem C62_trim : forall s,
  exists a b, s = a ++ trim s ++ b /\ spaces a /\ spaces b /\ bare (trim s).
Proof. exact trim_ok. Qed.
Print Assumptions C62_trim.
(* C62: gen_trim gives what is between the first p and the last q after it. *)
Theorem C62_gen_trim : forall junk p q s, clean s -> q <> [] ->
  (exists a t c, gen_trim junk p q s = Ok t /\ s = a ++ p ++ t ++ q ++ c /\
     first_place s p (length a) /\ last_place (t ++ q ++ c) q (length t)) \/
  (gen_trim junk p q s = Fail /\
     forall a t c, s = a ++ p ++ t ++ q ++ c -> ~ first_place s p (length a)).
Proof. exact gen_trim_ok. Qed.
Print Assumptions C62_gen_trim.
Example C62_ex_trim :
  trim (txt "  a b  ") = txt "a b" /\ trim (txt "   ") = [] /\
  gen_trim junk1 (txt "<") (txt ">") (txt "x<a>b>y") = Ok (txt "a>b") /\
  gen_trim junk1 (txt "<") (txt ">") (txt "x>a<b") = Fail.
Proof. exact text_ex_trim. Qed.

(* C62: pieces of sz characters. *)
Theorem C62_cluster : forall junk s sz, clean s -> (0 < sz)%Z ->
  ((sz | strlen s)%Z /\
     exists l, cluster junk s sz = Ok l /\ concat l = s /\ Forall (fun x => strlen x = sz) l) \/
  (~ (sz | strlen s)%Z /\ cluster junk s sz = Fail).
Proof. exact cluster_ok. Qed.
Print Assumptions C62_cluster.
(* C62: split cuts at every separator, from the left. *)
Theorem C62_split : forall s sep,
  (sep <> [] -> s <> [] -> exists l, split s sep = Ok l /\ join sep l = s /\ cut_at sep l) /\
  split [] sep = Ok [] /\
  (exists l, split s [] = Ok l /\ concat l = s /\ Forall (fun x => length x = 1%nat) l).
Proof. intros s sep. exact (conj (split_ok s sep) (conj (split_nil sep) (split_chars s))). Qed.
Print Assumptions C62_split.
(* C62: implode joins, up to the size m of the buffer. *)
Theorem C62_implode : forall m l, (0 <= m)%Z ->
  ((strlen (concat l) <= m)%Z /\ implode m l = Ok (concat l)) \/
  ((m < strlen (concat l))%Z /\ implode m l = Fail).
Proof. exact implode_ok. Qed.
Print Assumptions C62_implode.
Example C62_ex_split :
  split (txt "a,b,,c") (txt ",") = Ok [txt "a"; txt "b"; []; txt "c"] /\
  split (txt "a,") (txt ",") = Ok [txt "a"; []] /\ split (txt "ab") [] = Ok [txt "a"; txt "b"] /\
  cluster junk1 (txt "abcdef") 2 = Ok [txt "ab"; txt "cd"; txt "ef"] /\ cluster junk1 (txt "abc") 2 = Fail /\
  implode 5 [txt "ab"; txt "cde"] = Ok (txt "abcde") /\ implode 4 [txt "ab"; txt "cde"] = Fail.
Proof. exact text_ex_split. Qed.

(* C62: a Tcl list of words and of texts in braces is read back, if nothing is quoted. *)
Theorem C62_tcl : forall junk l ws, Forall2 element l ws -> tcl2list junk (join [" "%char] ws) = Ok l.
Proof. exact tcl_ok. Qed.
Print Assumptions C62_tcl.
Example C62_ex_tcl :
  Forall2 element [txt "a"; txt "b {c d}"; []; txt "ef"] [txt "a"; txt "{b {c d}}"; txt "{}"; txt "ef"] /\
  tcl2list junk1 (txt "a {b {c d}} {} ef") = Ok [txt "a"; txt "b {c d}"; []; txt "ef"].
Proof. exact (conj text_ex_element text_ex_tcl). Qed.

(* C62: with a negative count string_lastn gives what an earlier call left in the buffer, and
   string_butfirstn reads before the string. *)
Theorem C62_negative_refuted :
  (exists s n j1 j2 t1 t2, clean s /\ lastn j1 s n = Ok t1 /\ lastn j2 s n = Ok t2 /\ t1 <> t2) /\
  (exists s n, clean s /\ butfirstn s n = Undef).
Proof.
  split.
  - exists (txt "a"), (-2)%Z, junk1, junk2, (txt "ne"), (txt "wo").
    split; [intros [H|[]]; discriminate|]. repeat split; try reflexivity. discriminate.
  - exists (txt "a"), (-1)%Z. split; [intros [H|[]]; discriminate|reflexivity].
Qed.
Print Assumptions C62_negative_refuted.
(* C62: substr overflows for a large count. *)
Theorem C62_overflow_refuted : forall junk s, s <> [] -> substr junk s 1 2147483647 = Undef.
Proof. exact substr_overflow. Qed.
Print Assumptions C62_overflow_refuted.
(* C62: with an empty suffix, string_gen_trim runs out of the buffer wherever the prefix is found. *)
Theorem C62_suffix_refuted : forall junk p a r, gen_trim junk p [] (a ++ p ++ r) = Undef.
Proof. exact gen_trim_nil. Qed.
Print Assumptions C62_suffix_refuted.
(* C62: pieces of 0 characters divide by zero; of a negative number, run out of the buffer. *)
Theorem C62_cluster_refuted :
  exists s, clean s /\ forall junk, cluster junk s 0 = Undef /\ cluster junk s (-1) = Undef.
Proof.
  exists (txt "ab"). split; [intros [H|[H|[]]]; discriminate|]. intros junk. split; reflexivity.
Qed.
Print Assumptions C62_cluster_refuted.
(* C62: tcl2list keeps the quoting character; drops the start of a word before a brace; and
   after a quoting character at the end it goes on in what an earlier call left. *)
Theorem C62_tcl_refuted :
  (forall junk, tcl2list junk (txt "a\ b") = Ok [txt "a\ b"]) /\
  tcl2list junk1 (txt "a{b}") = Ok [txt "b"] /\
  (exists junk, tcl2list junk (txt "a\") = Ok [txt "a\"; txt "secret"]).
Proof.
  split; [intros junk; reflexivity|]. split; [vm_compute; reflexivity|].
  exists (txt " secret" ++ [NUL]). reflexivity.
Qed.
Print Assumptions C62_tcl_refuted.
(* C62: the first regular expression of a session writes before the cache. *)
Theorem C62_regexp_refuted : forall now ok p, compile_regexp now ok regexps p = Undef.
Proof. exact regexp_first. Qed.
Print Assumptions C62_regexp_refuted.
