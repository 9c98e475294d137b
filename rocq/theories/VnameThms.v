(* Parsing and printing of vector names; ranges. *)
From Coq Require Import ZArith List Bool Ascii String Lia Permutation.
From Verif Require Import IlistModel IlistSpec IlistThms VnameModel.
Import ListNotations.
Open Scope Z_scope.
Open Scope list_scope.

Local Notation length := List.length.

(* --- numerals ------------------------------------------------------------------ *)

Lemma digit_char_ok : forall d, 0 <= d < 10 -> digit (digit_char d) = true /\ digit_val (digit_char d) = d.
Proof.
  intros d H.
  assert (E : d = 0 \/ d = 1 \/ d = 2 \/ d = 3 \/ d = 4 \/ d = 5 \/ d = 6 \/ d = 7 \/ d = 8 \/ d = 9) by lia.
  decompose [or] E; subst; vm_compute; split; reflexivity.
Qed.

Definition is_num (c : ascii) : bool := digit c || Ascii.eqb c "-"%char.

Lemma show_digits_ok : forall fuel n acc, 0 <= n < 10 ^ Z.of_nat fuel -> (0 < fuel)%nat ->
  exists ds, show_digits fuel n acc = ds ++ acc /\ Forall (fun c => digit c = true) ds /\ ds <> []
    /\ forall a s, read_digits a (ds ++ s) = read_digits (a * 10 ^ Z.of_nat (length ds) + n) s.
Proof.
  induction fuel as [|k IH]; intros n acc H P; [lia|]. cbn [show_digits].
  destruct (digit_char_ok (n mod 10)) as [D1 D2]; [apply Z.mod_pos_bound; lia|].
  destruct (Z.ltb_spec n 10).
  - exists [digit_char (n mod 10)]. split; [reflexivity|]. split; [repeat constructor; exact D1|].
    split; [discriminate|]. intros a s. cbn [app read_digits length]. rewrite D1, D2.
    rewrite Z.mod_small by lia. reflexivity.
  - assert (K : (0 < k)%nat).
    { destruct k; [|lia]. cbn in H. lia. }
    assert (B : 0 <= n / 10 < 10 ^ Z.of_nat k).
    { split; [apply Z.div_pos; lia|]. apply Z.div_lt_upper_bound; [lia|].
      rewrite Nat2Z.inj_succ, Z.pow_succ_r in H by lia. lia. }
    destruct (IH (n / 10) (digit_char (n mod 10) :: acc) B K) as [ds [E [F [N R]]]].
    exists (ds ++ [digit_char (n mod 10)]). split; [rewrite E, <- app_assoc; reflexivity|].
    split; [apply Forall_app; split; [exact F|repeat constructor; exact D1]|].
    split; [destruct ds; discriminate|]. intros a s. rewrite <- app_assoc, R. cbn [app read_digits].
    rewrite D1, D2, app_length, Nat2Z.inj_add, Z.pow_add_r by lia. cbn [length]. f_equal.
    rewrite (Z.div_mod n 10) at 3 by lia. change (10 ^ Z.of_nat 1) with 10. ring.
Qed.

Lemma show_nat_ok : forall n, 0 <= n ->
  exists ds, show_nat n = ds /\ Forall (fun c => digit c = true) ds /\ ds <> []
    /\ forall s, read_digits 0 (ds ++ s) = read_digits n s.
Proof.
  intros n H. destruct (show_digits_ok (S (Z.to_nat (Z.log2 n))) n []) as [ds [E [F [N R]]]]; [|lia|].
  - split; [exact H|]. destruct (Z.eq_dec n 0) as [->|NZ]; [reflexivity|].
    assert (L := Z.log2_spec n ltac:(lia)). assert (P := Z.log2_nonneg n).
    rewrite Nat2Z.inj_succ, Z2Nat.id by lia.
    apply Z.lt_le_trans with (2 ^ Z.succ (Z.log2 n)); [lia|]. apply Z.pow_le_mono_l. lia.
  - exists ds. rewrite app_nil_r in E. split; [exact E|]. split; [exact F|]. split; [exact N|].
    intros s. rewrite R. f_equal.
Qed.

Lemma skip_digits_app : forall ds s, Forall (fun c => digit c = true) ds ->
  skip_digits (ds ++ s) = skip_digits s.
Proof.
  induction ds as [|c ds IH]; intros s F; [reflexivity|]. inversion F as [|? ? F1 F2]; subst.
  cbn. rewrite F1. apply IH; exact F2.
Qed.

Definition stop (s : chars) : Prop := match s with c :: _ => digit c = false | [] => True end.

Lemma skip_stop : forall s, stop s -> skip_digits s = s.
Proof. intros [|c s] H; [reflexivity|]. cbn in H |- *. rewrite H. reflexivity. Qed.

Lemma read_stop : forall s a, stop s -> read_digits a s = (a, s).
Proof. intros [|c s] a H; [reflexivity|]. cbn in H |- *. rewrite H. reflexivity. Qed.

Lemma read_int_digit : forall c r, digit c = true -> read_int (c :: r) = read_digits 0 (c :: r).
Proof.
  intros c r D. unfold read_int.
  destruct c as [[] [] [] [] [] [] [] []]; try reflexivity; vm_compute in D; discriminate.
Qed.

Lemma valid_num_digit : forall c r, digit c = true -> valid_num (c :: r) = Some (skip_digits (c :: r)).
Proof.
  intros c r D. unfold valid_num.
  destruct c as [[] [] [] [] [] [] [] []]; try reflexivity; vm_compute in D; discriminate.
Qed.

Record numeral (s : chars) (z : Z) : Prop := {
  num_read : forall r, stop r -> read_int (s ++ r) = (z, r);
  num_valid : forall r, stop r -> valid_num (s ++ r) = Some r;
  num_chars : Forall (fun c => is_num c = true) s;
  num_some : s <> []
}.

Lemma show_int_ok : forall z, numeral (show_int z) z.
Proof.
  intros z. unfold show_int. destruct (Z.ltb_spec z 0).
  - destruct (show_nat_ok (- z)) as [ds [E [F [N R]]]]; [lia|]. rewrite E. split.
    + intros r S. cbn [app read_int]. rewrite R, read_stop by exact S. f_equal. lia.
    + intros r S. cbn [app]. unfold valid_num. destruct ds as [|c ds]; [congruence|].
      inversion F as [|? ? F1 F2]; subst. cbn [app]. rewrite F1.
      change (c :: ds ++ r) with ((c :: ds) ++ r). rewrite skip_digits_app, skip_stop by assumption. reflexivity.
    + constructor; [reflexivity|]. eapply Forall_impl; [|exact F]. intros c D. unfold is_num. rewrite D. reflexivity.
    + discriminate.
  - destruct (show_nat_ok z) as [ds [E [F [N R]]]]; [lia|]. rewrite E.
    destruct ds as [|c ds]; [congruence|]. inversion F as [|? ? F1 F2]; subst. split.
    + intros r S. cbn [app]. rewrite read_int_digit by exact F1.
      change (c :: ds ++ r) with ((c :: ds) ++ r). rewrite R, read_stop by exact S. reflexivity.
    + intros r S. cbn [app]. rewrite valid_num_digit by exact F1.
      change (c :: ds ++ r) with ((c :: ds) ++ r).
      rewrite skip_digits_app, skip_stop by assumption. reflexivity.
    + eapply Forall_impl; [|exact F]. intros x D. unfold is_num. rewrite D. reflexivity.
    + discriminate.
Qed.

(* --- ranges of a name ----------------------------------------------------------------- *)

Definition not_end (c : ascii) : bool := is_num c || Ascii.eqb c ":"%char || Ascii.eqb c ","%char.

Lemma num_not : forall c d, is_num c = true -> is_num d = false -> Ascii.eqb c d = false.
Proof. intros c d H K. destruct (Ascii.eqb_spec c d); [congruence|reflexivity]. Qed.

Lemma show_range_chars : forall p, Forall (fun c => is_num c || Ascii.eqb c ":"%char = true) (show_range p).
Proof.
  intros [u l]. unfold show_range. cbn [fst snd].
  assert (W : forall z, Forall (fun c => is_num c || Ascii.eqb c ":"%char = true) (show_int z)).
  { intros z. eapply Forall_impl; [|exact (num_chars _ _ (show_int_ok z))]. cbn. intros c ->. reflexivity. }
  destruct (u =? l); [apply W|]. apply Forall_app. split; [apply W|]. constructor; [reflexivity|apply W].
Qed.

Lemma show_range_some : forall p, show_range p <> [].
Proof.
  intros [u l]. unfold show_range. cbn [fst snd]. destruct (u =? l).
  - apply (num_some _ _ (show_int_ok u)).
  - destruct (show_int u); discriminate.
Qed.

Lemma show_ranges_cons : forall p q rs,
  show_ranges (p :: q :: rs) = show_range p ++ ","%char :: show_ranges (q :: rs).
Proof. reflexivity. Qed.

Lemma show_ranges_chars : forall rs, Forall (fun c => not_end c = true) (show_ranges rs).
Proof.
  assert (W : forall p, Forall (fun c => not_end c = true) (show_range p)).
  { intros p. eapply Forall_impl; [|exact (show_range_chars p)]. cbn. unfold not_end. intros c ->. reflexivity. }
  induction rs as [|p rs IH]; [constructor|]. destruct rs as [|q rs]; [apply W|].
  rewrite show_ranges_cons. apply Forall_app. split; [apply W|]. constructor; [reflexivity|exact IH].
Qed.

(* Reading one range. *)
Definition range_stop (s : chars) : Prop :=
  match s with c :: _ => c = ","%char \/ c = "]"%char | [] => True end.

Lemma range_stop_stop : forall s, range_stop s -> stop s.
Proof. intros [|c s] H; [exact I|]. destruct H as [->| ->]; reflexivity. Qed.

Lemma range_no_colon : forall (A : Type) s (f : chars -> A) (g : A), range_stop s ->
  match s with ":"%char :: r => f r | _ => g end = g.
Proof. intros A [|c s] f g H; [reflexivity|]. destruct H as [->| ->]; reflexivity. Qed.

Lemma valid_range : forall p r, range_stop r ->
  match valid_num (show_range p ++ r) with
  | Some s2 => (match s2 with ":"%char :: t => valid_num t | _ => Some s2 end)
  | None => None
  end = Some r.
Proof.
  intros [u l] r H. assert (S := range_stop_stop r H). unfold show_range. cbn [fst snd].
  destruct (u =? l).
  - rewrite (num_valid _ _ (show_int_ok u)) by exact S. apply range_no_colon; exact H.
  - rewrite <- app_assoc. cbn [app]. rewrite (num_valid _ _ (show_int_ok u)) by reflexivity.
    apply (num_valid _ _ (show_int_ok l)). exact S.
Qed.

Lemma read_range : forall p r, range_stop r ->
  (let (u, t) := read_int (show_range p ++ r) in
   (u, match t with ":"%char :: t' => fst (read_int t') | _ => u end)) = p.
Proof.
  intros [u l] r H. assert (S := range_stop_stop r H). unfold show_range. cbn [fst snd].
  destruct (Z.eqb_spec u l).
  - subst. rewrite (num_read _ _ (show_int_ok l)) by exact S. f_equal. apply range_no_colon; exact H.
  - rewrite <- app_assoc. cbn [app]. rewrite (num_read _ _ (show_int_ok u)) by reflexivity.
    rewrite (num_read _ _ (show_int_ok l)) by exact S. reflexivity.
Qed.

Lemma after_comma_app : forall s r, Forall (fun c => is_num c || Ascii.eqb c ":"%char = true) s ->
  after_comma (s ++ r) = after_comma r.
Proof.
  induction s as [|c s IH]; intros r F; [reflexivity|]. inversion F as [|? ? F1 F2]; subst. cbn.
  destruct (Ascii.eqb_spec c ","%char) as [->|]; [discriminate|]. apply IH; exact F2.
Qed.

Lemma read_ranges_ok : forall rs fuel, (length (show_ranges rs) < fuel)%nat ->
  read_ranges fuel (show_ranges rs) = rs.
Proof.
  induction rs as [|p rs IH]; intros fuel H; [destruct fuel; reflexivity|].
  destruct fuel as [|k]; [lia|]. destruct rs as [|q rs].
  - cbn [show_ranges] in *. assert (N := show_range_some p). assert (R := read_range p [] I).
    rewrite app_nil_r in R. assert (A := after_comma_app (show_range p) [] (show_range_chars p)).
    rewrite app_nil_r in A. cbn [read_ranges].
    destruct (show_range p) as [|c s] eqn:E; [congruence|].
    destruct (read_int (c :: s)) as [u t]. rewrite R, A. destruct k; reflexivity.
  - rewrite show_ranges_cons in *.
    assert (R := read_range p (","%char :: show_ranges (q :: rs)) (or_introl eq_refl)).
    assert (A := after_comma_app (show_range p) (","%char :: show_ranges (q :: rs)) (show_range_chars p)).
    assert (N := show_range_some p).
    destruct (show_range p ++ ","%char :: show_ranges (q :: rs)) as [|c s] eqn:E.
    { destruct (show_range p); discriminate. }
    cbn [read_ranges]. destruct (read_int (c :: s)) as [u t]. rewrite R, A.
    cbn [after_comma]. rewrite Ascii.eqb_refl. f_equal. apply IH.
    rewrite <- E, app_length in H. cbn [length] in H. lia.
Qed.

Lemma valid_ranges : forall rs fuel r, rs <> [] -> (length (show_ranges rs) < fuel)%nat ->
  valid_index_f fuel (show_ranges rs ++ "]"%char :: r) = true.
Proof.
  induction rs as [|p rs IH]; intros fuel r N H; [congruence|]. destruct fuel as [|k]; [lia|].
  destruct rs as [|q rs].
  - cbn [show_ranges] in *. assert (V := valid_range p ("]"%char :: r) (or_intror eq_refl)).
    cbn [valid_index_f]. destruct (valid_num (show_range p ++ "]"%char :: r)) as [s2|]; [|discriminate].
    rewrite V. reflexivity.
  - rewrite show_ranges_cons in *. rewrite <- app_assoc. cbn [app].
    assert (V := valid_range p (","%char :: show_ranges (q :: rs) ++ "]"%char :: r) (or_introl eq_refl)).
    cbn [valid_index_f].
    destruct (valid_num (show_range p ++ ","%char :: show_ranges (q :: rs) ++ "]"%char :: r)) as [s2|]; [|discriminate].
    rewrite V. apply IH; [discriminate|]. rewrite app_length in H. cbn [length] in H. lia.
Qed.

Lemma valid_index_ranges : forall rs r, rs <> [] -> valid_index (show_ranges rs ++ "]"%char :: r) = true.
Proof. intros rs r N. apply valid_ranges; [exact N|]. rewrite app_length. cbn. lia. Qed.

Lemma before_bracket_ok : forall s r, Forall (fun c => not_end c = true) s ->
  before_bracket (s ++ "]"%char :: r) = (s, "]"%char :: r).
Proof.
  induction s as [|c s IH]; intros r F; [reflexivity|]. inversion F as [|? ? F1 F2]; subst. cbn.
  destruct (Ascii.eqb_spec c "]"%char) as [->|]; [discriminate|]. rewrite IH by exact F2. reflexivity.
Qed.

(* --- texts ------------------------------------------------------------------------------ *)

(* The check of an index looks no further than a '['. *)
Lemma skip_digits_bracket : forall s r, exists t,
  skip_digits (s ++ "["%char :: r) = t ++ "["%char :: r /\ skip_digits (s ++ ["["%char]) = t ++ ["["%char].
Proof.
  induction s as [|c s IH]; intros r; [exists []; split; reflexivity|]. cbn.
  destruct (digit c); [apply IH|]. exists (c :: s). split; reflexivity.
Qed.

Lemma skip_digits_le : forall s, (length (skip_digits s) <= length s)%nat.
Proof. induction s as [|c s IH]; cbn; [lia|]. destruct (digit c); cbn; lia. Qed.

Lemma valid_num_bracket : forall s r,
  (valid_num (s ++ "["%char :: r) = None /\ valid_num (s ++ ["["%char]) = None) \/
  exists t, valid_num (s ++ "["%char :: r) = Some (t ++ "["%char :: r)
            /\ valid_num (s ++ ["["%char]) = Some (t ++ ["["%char]).
Proof.
  assert (D : forall s r,
    (match s ++ "["%char :: r with c :: _ => if digit c then Some (skip_digits (s ++ "["%char :: r)) else None | [] => None end = None
     /\ match s ++ ["["%char] with c :: _ => if digit c then Some (skip_digits (s ++ ["["%char])) else None | [] => None end = None) \/
    exists t,
     match s ++ "["%char :: r with c :: _ => if digit c then Some (skip_digits (s ++ "["%char :: r)) else None | [] => None end = Some (t ++ "["%char :: r)
     /\ match s ++ ["["%char] with c :: _ => if digit c then Some (skip_digits (s ++ ["["%char])) else None | [] => None end = Some (t ++ ["["%char])).
  { intros [|c s] r; [left; split; reflexivity|]. destruct (digit c) eqn:E.
    - right. destruct (skip_digits_bracket (c :: s) r) as [t [T1 T2]]. exists t. cbn [app] in *. rewrite E, T1, T2.
      split; reflexivity.
    - left. cbn [app]. rewrite E. split; reflexivity. }
  intros s r. unfold valid_num. destruct s as [|c s]; [left; split; reflexivity|].
  destruct (Ascii.eqb_spec c "-"%char) as [->|N]; [exact (D s r)|].
  assert (M : forall (x : chars), match (c :: x) with "-"%char :: r' => r' | _ => c :: x end = c :: x).
  { intros x. destruct c as [[] [] [] [] [] [] [] []]; try reflexivity. congruence. }
  cbn [app]. rewrite !M. exact (D (c :: s) r).
Qed.

Lemma colon_or_not : forall (A : Type) c (r : chars) (f : chars -> A) (g : A), c <> ":"%char ->
  match c :: r with ":"%char :: r' => f r' | _ => g end = g.
Proof.
  intros A c r f g N. destruct c as [[] [] [] [] [] [] [] []]; try reflexivity. congruence.
Qed.

Lemma valid_num_le : forall s r, valid_num s = Some r -> (length r < length s)%nat.
Proof.
  assert (D : forall s r, match s with c :: _ => if digit c then Some (skip_digits s) else None | [] => None end = Some r ->
     (length r < length s)%nat).
  { intros [|c s] r H; [discriminate|]. destruct (digit c) eqn:E; [|discriminate]. injection H as <-.
    cbn. rewrite E. assert (Q := skip_digits_le s). lia. }
  intros s r H. destruct s as [|c s]; [discriminate|].
  destruct (Ascii.eqb_spec c "-"%char) as [->|N]; [apply (D s) in H; cbn; lia|].
  assert (M : valid_num (c :: s) = if digit c then Some (skip_digits (c :: s)) else None).
  { unfold valid_num. destruct c as [[] [] [] [] [] [] [] []]; try reflexivity. congruence. }
  rewrite M in H. apply (D (c :: s)). exact H.
Qed.

Lemma valid_f_bracket : forall fuel f2 s r, (length s < fuel)%nat -> (length s < f2)%nat ->
  valid_index_f fuel (s ++ "["%char :: r) = valid_index_f f2 (s ++ ["["%char]).
Proof.
  induction fuel as [|k IH]; intros f2 s r H1 H2; [lia|]. destruct f2 as [|k2]; [lia|].
  cbn [valid_index_f]. destruct (valid_num_bracket s r) as [[A B]|[t [A B]]]; rewrite A, B; [reflexivity|].
  assert (LT : (length t < length s)%nat).
  { apply valid_num_le in B. rewrite !app_length in B. cbn in B. lia. }
  assert (C : forall t, (length t < length s)%nat ->
    match t ++ "["%char :: r with
    | "]"%char :: _ => true | ","%char :: r0 => valid_index_f k r0 | _ => false end =
    match t ++ ["["%char] with
    | "]"%char :: _ => true | ","%char :: r0 => valid_index_f k2 r0 | _ => false end).
  { clear t A B LT. intros [|c t] LT; [reflexivity|]. cbn [app].
    assert (Q : valid_index_f k (t ++ "["%char :: r) = valid_index_f k2 (t ++ ["["%char])).
    { cbn in LT. apply IH; lia. }
    destruct c as [[] [] [] [] [] [] [] []]; try reflexivity. exact Q. }
  destruct t as [|c t].
  - cbn [app]. reflexivity.
  - destruct (Ascii.eqb_spec c ":"%char) as [->|N].
    + cbn [app]. destruct (valid_num_bracket t r) as [[A' B']|[t' [A' B']]]; rewrite A', B'; [reflexivity|].
      apply C. apply valid_num_le in B'. rewrite !app_length in B'. cbn in B', LT. lia.
    + cbn [app]. rewrite !(colon_or_not _ c) by exact N. exact (C (c :: t) LT).
Qed.

Lemma valid_bracket : forall s r, valid_index (s ++ "["%char :: r) = valid_index (s ++ ["["%char]).
Proof. intros s r. apply valid_f_bracket; rewrite app_length; cbn; lia. Qed.

(* A text that the parser takes as one text: no '[' before an index inside it. *)
Definition no_index_in (t : chars) : Prop :=
  forall a b, t = a ++ "["%char :: b -> b <> [] -> valid_index b = false.

Definition escaped (t : chars) : bool := match t with c :: _ => Ascii.eqb c "\"%char | [] => false end.

Lemma scan_last : forall t, no_index_in t -> scan_text t = (t, []).
Proof.
  induction t as [|c t IH]; intros N; [reflexivity|]. cbn [scan_text].
  assert (N' : no_index_in t) by (intros a b E; apply (N (c :: a) b); rewrite E; reflexivity).
  destruct (Ascii.eqb_spec c "["%char) as [->|]; cbn [andb].
  - destruct t as [|d t]; [reflexivity|].
    rewrite (N [] (d :: t) eq_refl) by discriminate. rewrite IH by exact N'. reflexivity.
  - rewrite IH by exact N'. reflexivity.
Qed.

Lemma scan_before : forall t rest, no_index_in (t ++ ["["%char]) -> valid_index rest = true ->
  scan_text (t ++ "["%char :: rest) = (t ++ ["["%char], rest).
Proof.
  induction t as [|c t IH]; intros rest N V.
  - cbn [app scan_text]. rewrite V. destruct rest; reflexivity.
  - cbn [app scan_text].
    assert (N' : no_index_in (t ++ ["["%char])) by (intros a b E; apply (N (c :: a) b); cbn; rewrite E; reflexivity).
    rewrite IH by assumption. destruct (Ascii.eqb_spec c "["%char) as [->|]; cbn [andb]; [|reflexivity].
    rewrite valid_bracket, (N [] (t ++ ["["%char]) eq_refl) by (destruct t; discriminate).
    destruct (t ++ "["%char :: rest) eqn:E; [destruct t; discriminate|]. reflexivity.
Qed.

(* Names as the parser understands them: texts and indices alternate, an index stands
   between '[' and ']', and a text contains nothing that reads as an index. *)
Fixpoint readable (v : vec) : Prop :=
  match v with
  | [] => True
  | Txt n :: r =>
      let t := list_ascii_of_string n in
      t <> [] /\ valid_index t = false /\ escaped t = false /\ no_index_in t /\
      match r with
      | [] => True
      | Idx rs :: (Txt m :: _) as r' =>
          rs <> [] /\ (exists a, t = a ++ ["["%char]) /\
          (exists b, list_ascii_of_string m = "]"%char :: b) /\
          match r with _ :: r'' => readable r'' | [] => True end
      | _ => False
      end
  | Idx _ :: _ => False
  end.

(* What the parser makes of the ranges: adjacent ones are joined. *)
Definition joined (rs : list (Z * Z)) : list (Z * Z) :=
  match rs with [] => [] | r :: rest => merge_from r rest end.

Definition joined_vec (v : vec) : vec :=
  map (fun e => match e with Txt n => Txt n | Idx rs => Idx (joined rs) end) v.

Lemma split_text : forall fuel t n rest v, list_ascii_of_string n = t -> t <> [] ->
  escaped t = false -> scan_text (t ++ rest) = (t, rest) -> valid_index (t ++ rest) = false ->
  split_f fuel rest = Some v -> split_f (S fuel) (t ++ rest) = Some (Txt n :: v).
Proof.
  intros fuel t n rest v E N ES SC V R. destruct t as [|c t]; [congruence|].
  cbn [app] in *. cbn [split_f]. rewrite V. cbn in ES. rewrite ES, SC, R.
  do 2 f_equal. unfold text. rewrite <- E, string_of_list_ascii_of_string. reflexivity.
Qed.

Lemma split_index : forall fuel rs rest v, rs <> [] -> split_f fuel ("]"%char :: rest) = Some v ->
  split_f (S fuel) (show_ranges rs ++ "]"%char :: rest) = Some (Idx (joined rs) :: v).
Proof.
  intros fuel rs rest v N R. assert (V := valid_index_ranges rs rest N).
  assert (B := before_bracket_ok (show_ranges rs) rest (show_ranges_chars rs)).
  assert (SE : show_ranges rs <> []).
  { destruct rs as [|p [|q rs]]; [congruence|apply show_range_some|]. rewrite show_ranges_cons.
    destruct (show_range p); discriminate. }
  destruct (show_ranges rs ++ "]"%char :: rest) as [|c s] eqn:E; [destruct (show_ranges rs); discriminate|].
  cbn [split_f]. rewrite V, B, R, read_ranges_ok by lia. unfold merge_indices, joined.
  destruct rs; [congruence|]. reflexivity.
Qed.

Lemma split_nil : forall fuel, split_f fuel [] = Some [].
Proof. intros [|k]; reflexivity. Qed.

Lemma valid_close : forall s, valid_index ("]"%char :: s) = false.
Proof. intros s. reflexivity. Qed.

Lemma list_ascii_length : forall s, length (list_ascii_of_string s) = String.length s.
Proof. induction s; cbn; congruence. Qed.

Lemma split_show_f : forall k v fuel, (length v <= k)%nat -> readable v ->
  (length (show_vec v) <= fuel)%nat -> split_f fuel (show_vec v) = Some (joined_vec v).
Proof.
  induction k as [|k IH]; intros v fuel K R L.
  { destruct v; [|cbn in K; lia]. apply split_nil. }
  destruct v as [|[n|rs] r]; [apply split_nil| |destruct R].
  cbn [readable] in R. destruct R as [N [V [ES [NI R]]]].
  cbn [show_vec] in *. set (t := list_ascii_of_string n) in *.
  destruct fuel as [|fuel]; [destruct t; [congruence|]; cbn in L; lia|].
  destruct r as [|[m|rs] r].
  - cbn [show_vec]. rewrite (split_text fuel t n [] [] eq_refl N ES); [reflexivity| | |apply split_nil].
    + rewrite app_nil_r. apply scan_last; exact NI.
    + rewrite app_nil_r. exact V.
  - destruct R.
  - destruct r as [|[m|rs2] r]; [destruct R| |destruct R].
    destruct R as [RS [[a TA] [[b MB] RR]]].
    cbn [joined_vec map]. fold (joined_vec (Txt m :: r)).
    cbn [show_vec] in *. rewrite MB in *.
    assert (VI := valid_index_ranges rs (b ++ show_vec r) RS).
    assert (LT : (1 <= length t)%nat) by (destruct t; [congruence|cbn; lia]).
    rewrite !app_length in L. cbn [length] in L.
    assert (SL : (1 <= length (show_ranges rs))%nat).
    { destruct rs as [|p [|q rs]]; [congruence| |].
      - cbn [show_ranges]. assert (Q := show_range_some p). destruct (show_range p); [congruence|cbn; lia].
      - rewrite show_ranges_cons, app_length. cbn. lia. }
    destruct fuel as [|fuel]; [lia|].
    apply split_text; try assumption; try reflexivity.
    + rewrite TA, <- app_assoc. cbn [app]. apply scan_before; [rewrite <- TA; exact NI|exact VI].
    + rewrite TA, <- app_assoc. cbn [app]. rewrite valid_bracket, <- TA. exact V.
    + cbn [app]. apply split_index; [exact RS|].
      assert (Q := IH (Txt m :: r) fuel). cbn [show_vec] in Q. rewrite MB in Q. apply Q.
      * cbn in K |- *. lia.
      * exact RR.
      * cbn [app length] in L |- *. rewrite ?app_length in *. lia.
Qed.

Theorem split_show : forall v, readable v -> split_name (show_vec v) = joined_vec v.
Proof.
  intros v R. unfold split_name. rewrite (split_show_f (length v) v) by (try exact R; lia). reflexivity.
Qed.

(* --- joining ranges ---------------------------------------------------------------------- *)

Lemma merge_from_ok : forall rs p, ints (merge_from p rs) = run (fst p) (snd p) ++ ints rs.
Proof.
  induction rs as [|[cu cl] rs IH]; intros [tu tl]; [reflexivity|]. cbn [merge_from].
  match goal with |- context [if ?c then _ else _] => destruct c eqn:C1 end.
  - rewrite IH, ints_cons, app_assoc. cbn [fst snd]. f_equal.
    apply andb_true_iff in C1 as [C1 C3]. apply andb_true_iff in C1 as [C1 C2]. apply Z.eqb_eq in C3.
    subst cu. symmetry. apply run_app_down; lia.
  - match goal with |- context [if ?c then _ else _] => destruct c eqn:C4 end.
    + rewrite IH, ints_cons, app_assoc. cbn [fst snd]. f_equal.
      apply andb_true_iff in C4 as [C4 C3]. apply andb_true_iff in C4 as [C4 C2]. apply Z.eqb_eq in C3.
      subst cu. symmetry. apply run_app_up; lia.
    + rewrite ints_cons, IH. reflexivity.
Qed.

Lemma joined_ok : forall rs, ints (joined rs) = ints rs.
Proof. intros [|p rs]; [reflexivity|]. apply merge_from_ok. Qed.

Lemma expand_idx : forall rs v, expand_vector (Idx rs :: v)
  = flat_map (fun i => map (cons (Idx [(i, i)])) (expand_vector v)) (ints rs).
Proof. intros rs v. cbn [expand_vector]. rewrite flat_range_ints. reflexivity. Qed.

Theorem joined_vec_ok : forall v, expand_vector (joined_vec v) = expand_vector v.
Proof.
  induction v as [|[n|rs] v IH]; [reflexivity| |]; cbn [joined_vec map]; fold (joined_vec v).
  - cbn [expand_vector]. rewrite IH. reflexivity.
  - rewrite !expand_idx, IH, joined_ok. reflexivity.
Qed.

(* --- canonical ranges ----------------------------------------------------------------------- *)

Lemma in_ints : forall x rs, In x (ints rs) <->
  exists p, In p rs /\ (fst p <= x <= snd p \/ snd p <= x <= fst p).
Proof.
  intros x rs. unfold ints. rewrite in_flat_map. split; intros [p [H1 H2]]; exists p;
    (split; [exact H1|]); apply run_in; exact H2.
Qed.

Lemma in_ints_cons : forall x p rs,
  In x (ints (p :: rs)) <-> (fst p <= x <= snd p \/ snd p <= x <= fst p) \/ In x (ints rs).
Proof. intros x p rs. rewrite ints_cons, in_app_iff, run_in. reflexivity. Qed.

Definition oriented (rs : list (Z * Z)) : Prop := Forall (fun p => snd p <= fst p) rs.

(* The range that make_range_canonical treats specially. *)
Definition no_special (rs : list (Z * Z)) : Prop := Forall (fun p => p <> (-1, 0)) rs.

Lemma oriented_no_special : forall rs, oriented rs -> no_special rs.
Proof. intros rs H. eapply Forall_impl; [|exact H]. intros p Q ->. cbn in Q. lia. Qed.

Theorem canonical_f_superset : forall fuel rs, (length rs <= fuel)%nat -> no_special rs ->
  oriented (canonical_f fuel rs) /\ (length (canonical_f fuel rs) <= length rs)%nat
  /\ forall x, In x (ints rs) -> In x (ints (canonical_f fuel rs)).
Proof.
  induction fuel as [|k IH]; intros rs L NS.
  { destruct rs; [|cbn in L; lia]. cbn. repeat split; auto. constructor. }
  destruct rs as [|[u0 l0] rest]; [repeat split; auto; constructor|].
  inversion NS as [|? ? NS1 NS2]; subst. cbn [canonical_f]. cbn [length] in L.
  match goal with |- context [if ?c then _ else _] => destruct c eqn:C end.
  { exfalso. apply NS1. apply andb_true_iff in C as [C C2]. apply andb_true_iff in C as [_ C1].
    apply Z.eqb_eq in C1, C2. subst. reflexivity. }
  assert (E : exists u l, (if u0 <? l0 then (l0, u0) else (u0, l0)) = (u, l) /\ l <= u
     /\ forall x, (u0 <= x <= l0 \/ l0 <= x <= u0) -> l <= x <= u).
  { destruct (Z.ltb_spec u0 l0); eexists _, _; (split; [reflexivity|]); split; lia. }
  destruct E as [u [l [-> [O X]]]].
  destruct (IH rest) as [I1 [I2 I3]]; [lia|exact NS2|].
  destruct (canonical_f k rest) as [|[ru rl] more].
  - split; [repeat constructor; exact O|]. split; [cbn; lia|]. intros x H.
    apply in_ints_cons in H. cbn [fst snd] in H. apply in_ints_cons. cbn [fst snd].
    destruct H as [H|H]; [specialize (X x H); lia|destruct (I3 x H)].
  - inversion I1 as [|? ? I1a I1b]; subst. cbn [fst snd] in I1a. cbn [length] in I2.
    assert (Y : forall x, In x (ints ((u0, l0) :: rest)) -> l <= x <= u \/ rl <= x <= ru \/ In x (ints more)).
    { intros x H. apply in_ints_cons in H. cbn [fst snd] in H. destruct H as [H|H]; [left; apply X; exact H|].
      apply I3 in H. apply in_ints_cons in H. cbn [fst snd] in H. intuition lia. }
    destruct (l >? ru) eqn:C1.
    { split; [constructor; [exact O|exact I1]|]. split; [cbn; lia|]. intros x H. apply Y in H.
      rewrite !in_ints_cons. cbn [fst snd]. intuition lia. }
    destruct (u <=? ru) eqn:C2; [destruct (l >=? rl) eqn:C3|destruct (rl >? l) eqn:C3].
    + split; [exact I1|]. split; [cbn; lia|]. intros x H. apply Y in H.
      rewrite in_ints_cons. cbn [fst snd]. intuition lia.
    + assert (OO : oriented ((ru, l) :: more)) by (constructor; [cbn; lia|exact I1b]).
      destruct (IH ((ru, l) :: more)) as [J1 [J2 J3]]; [cbn; lia|apply oriented_no_special; exact OO|].
      split; [exact J1|]. split; [cbn in *; lia|]. intros x H. apply J3. apply Y in H.
      rewrite in_ints_cons. cbn [fst snd]. intuition lia.
    + assert (OO : oriented ((u, l) :: more)) by (constructor; [cbn; lia|exact I1b]).
      destruct (IH ((u, l) :: more)) as [J1 [J2 J3]]; [cbn; lia|apply oriented_no_special; exact OO|].
      split; [exact J1|]. split; [cbn in *; lia|]. intros x H. apply J3. apply Y in H.
      rewrite in_ints_cons. cbn [fst snd]. intuition lia.
    + split; [constructor; [cbn; lia|exact I1b]|]. split; [cbn; lia|]. intros x H. apply Y in H.
      rewrite in_ints_cons. cbn [fst snd]. intuition lia.
Qed.

Theorem canonical_superset : forall rs, no_special rs ->
  oriented (canonical rs) /\ forall x, In x (ints rs) -> In x (ints (canonical rs)).
Proof.
  intros rs NS. destruct (canonical_f_superset (length rs) rs) as [A [_ B]]; [lia|exact NS|]. split; assumption.
Qed.

(* Ranges that are already in descending order without overlap. *)
Fixpoint falling (rs : list (Z * Z)) : Prop :=
  match rs with
  | [] => True
  | p :: r => snd p <= fst p /\ match r with [] => True | q :: _ => fst q < snd p end /\ falling r
  end.

Theorem canonical_falling : forall rs, falling rs -> canonical rs = rs.
Proof.
  unfold canonical. induction rs as [|[u l] rs IH]; intros F; [reflexivity|].
  cbn [falling fst snd] in F. destruct F as [F1 [F2 F3]]. cbn [canonical_f length].
  match goal with |- context [if ?c then _ else _] => destruct c end; [reflexivity|].
  destruct (Z.ltb_spec u l); [lia|]. rewrite IH by exact F3.
  destruct rs as [|[ru rl] rs]; [reflexivity|]. cbn [fst] in F2.
  destruct (l >? ru) eqn:C; [reflexivity|]. lia.
Qed.

Theorem canonical_one : forall u l, canonical [(u, l)] =
  if (u =? -1) && (l =? 0) then [(u, l)] else [(Z.max u l, Z.min u l)].
Proof.
  intros u l. unfold canonical. cbn [canonical_f length andb].
  destruct ((u =? -1) && (l =? 0)); [reflexivity|].
  destruct (Z.ltb_spec u l); [rewrite Z.max_r, Z.min_l by lia|rewrite Z.max_l, Z.min_r by lia]; reflexivity.
Qed.

(* --- compress_ranges --------------------------------------------------------------------------- *)

Lemma compress_nil_r : forall fuel a, compress_f fuel a [] = a.
Proof. intros [|k] [|[u l] a]; reflexivity. Qed.

Lemma compress_nil_l : forall fuel b, compress_f fuel [] b = b.
Proof. intros [|k] b; reflexivity. Qed.

Theorem compress_ok : forall fuel a b, oriented a -> oriented b -> (length a + length b <= fuel)%nat ->
  oriented (compress_f fuel a b)
  /\ forall x, In x (ints (compress_f fuel a b)) <-> In x (ints a) \/ In x (ints b).
Proof.
  induction fuel as [|k IH]; intros a b OA OB L.
  { destruct a; [|cbn in L; lia]. destruct b; [|cbn in L; lia]. split; [exact OA|]. cbn. tauto. }
  destruct a as [|[ua la] ra]; [rewrite compress_nil_l; split; [exact OB|cbn; tauto]|].
  destruct b as [|[ub lb] rb]; [rewrite compress_nil_r; split; [exact OA|cbn; tauto]|].
  cbn [compress_f].
  assert (G : forall u1 l1 n1 u2 l2 n2, oriented ((u1, l1) :: n1) -> oriented ((u2, l2) :: n2) ->
    u2 <= u1 -> (length n1 + length n2 + 2 <= S k)%nat ->
    let res := if l1 >? u2 + 1 then (u1, l1) :: compress_f k n1 ((u2, l2) :: n2)
      else if l1 <=? l2 then compress_f k ((u1, l1) :: n1) n2
      else compress_f k (match n1 with
          | (nu, nl) :: nr => if l2 =? nu + 1 then (u1, nl) :: nr else (u1, l2) :: n1
          | [] => [(u1, l2)] end) n2 in
    oriented res /\ forall x, In x (ints res) <-> In x (ints ((u1, l1) :: n1)) \/ In x (ints ((u2, l2) :: n2))).
  { intros u1 l1 n1 u2 l2 n2 O1 O2 U LL. cbn zeta.
    inversion O1 as [|? ? O1a O1b]; subst. inversion O2 as [|? ? O2a O2b]; subst. cbn [fst snd] in *.
    destruct (l1 >? u2 + 1) eqn:C1.
    - destruct (IH n1 ((u2, l2) :: n2) O1b O2) as [I1 I2]; [cbn; lia|]. split; [constructor; [exact O1a|exact I1]|].
      intros x. rewrite (in_ints_cons x (u1, l1)), I2, (in_ints_cons x (u1, l1)). tauto.
    - destruct (l1 <=? l2) eqn:C2.
      + destruct (IH ((u1, l1) :: n1) n2 O1 O2b) as [I1 I2]; [cbn; lia|]. split; [exact I1|].
        intros x. rewrite I2, !in_ints_cons. cbn [fst snd]. intuition lia.
      + destruct n1 as [|[nu nl] nr].
        * destruct (IH [(u1, l2)] n2) as [I1 I2]; [repeat constructor; cbn; lia|exact O2b|cbn in *; lia|].
          split; [exact I1|]. intros x. rewrite I2, !in_ints_cons. cbn [fst snd ints flat_map In]. intuition lia.
        * inversion O1b as [|? ? O1c O1d]; subst. cbn [fst snd] in O1c.
          destruct (Z.eqb_spec l2 (nu + 1)).
          -- destruct (IH ((u1, nl) :: nr) n2) as [I1 I2]; [constructor; [cbn; lia|exact O1d]|exact O2b|cbn in *; lia|].
             split; [exact I1|]. intros x. rewrite I2, !in_ints_cons. cbn [fst snd]. intuition lia.
          -- destruct (IH ((u1, l2) :: (nu, nl) :: nr) n2) as [I1 I2]; [constructor; [cbn; lia|exact O1b]|exact O2b|cbn in *; lia|].
             split; [exact I1|]. intros x. rewrite I2, !in_ints_cons. cbn [fst snd]. intuition lia. }
  cbn [length] in L. destruct (Z.ltb_spec ua ub).
  - destruct (G ub lb rb ua la ra OB OA) as [G1 G2]; [lia|lia|]. split; [exact G1|].
    intros x. rewrite G2. tauto.
  - apply (G ua la ra ub lb rb OA OB); lia.
Qed.

(* --- overlap ------------------------------------------------------------------------------------- *)

Theorem range_overlap_one : forall u1 l1 u2 l2, l1 <= u1 -> l2 <= u2 ->
  range_overlap [(u1, l1)] [(u2, l2)] = true <-> exists x, In x (ints [(u1, l1)]) /\ In x (ints [(u2, l2)]).
Proof.
  intros u1 l1 u2 l2 H1 H2. cbn [range_overlap]. split.
  - intros H. exists (Z.min u1 u2). rewrite !in_ints_cons. cbn [fst snd ints flat_map In].
    destruct ((l1 <=? u2) && (l2 <=? u1)) eqn:C; [|discriminate]. apply andb_true_iff in C as [C1 C2]. lia.
  - intros [x [X1 X2]]. rewrite in_ints_cons in X1, X2. cbn [fst snd ints flat_map In] in X1, X2.
    destruct ((l1 <=? u2) && (l2 <=? u1)) eqn:C; [reflexivity|]. apply andb_false_iff in C. lia.
Qed.
