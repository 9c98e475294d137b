(* Numbers, pointers, tables and the strings file are read back as written. *)
From Coq Require Import ZArith List Ascii Bool Lia.
From Verif Require Import SerModel SerSpec.
Import ListNotations.
Open Scope Z_scope.

Lemma digit_range : forall d, 0 <= d < 16 ->
  In d [0;1;2;3;4;5;6;7;8;9;10;11;12;13;14;15].
Proof. intros d H. cbn. lia. Qed.

Lemma digit_of_chr b d : 0 <= d < b -> b <= 16 -> digit_of b (digit_chr d) = Some d.
Proof.
  intros H Hb. assert (I : In d [0;1;2;3;4;5;6;7;8;9;10;11;12;13;14;15]) by (apply digit_range; lia).
  assert (E : forall c v, (let n := ord c in
     if (48 <=? n) && (n <=? 57) then n - 48
     else if (97 <=? n) && (n <=? 102) then n - 87
     else if (65 <=? n) && (n <=? 70) then n - 55 else b) = v -> v < b -> digit_of b c = Some v).
  { intros c v Hc Hv. unfold digit_of. cbv zeta in *. rewrite Hc. destruct (Z.ltb_spec v b); [reflexivity|lia]. }
  cbn in I.
  repeat (destruct I as [<-|I]; [apply E; [reflexivity|lia]|]).
  destruct I.
Qed.

Lemma show_base_spec b : 2 <= b <= 16 -> forall fuel n, 0 <= n < 2 ^ Z.of_nat fuel -> (0 < fuel)%nat ->
  exists d ds, 0 <= d < b
    /\ (forall acc, show_base fuel b n acc = digit_chr d :: ds ++ acc)
    /\ (forall a t, read_base b a (digit_chr d :: ds ++ t)
                    = read_base b (a * b ^ Z.of_nat (S (length ds)) + n) t).
Proof.
  intros Hb. induction fuel as [|f IH]; intros n Hn Hf; [lia|].
  cbn [show_base]. destruct (Z.ltb_spec n b) as [L|L].
  - exists n, []. split; [lia|]. split; [intros; reflexivity|].
    intros a t. cbn [app read_base]. rewrite digit_of_chr by lia. cbn [length].
    replace (b ^ Z.of_nat 1) with b by (cbn; lia). reflexivity.
  - rewrite Nat2Z.inj_succ, Z.pow_succ_r in Hn by lia.
    assert (Hq : 0 <= n / b < 2 ^ Z.of_nat f).
    { split; [apply Z.div_pos; lia|]. apply Z.div_lt_upper_bound; [lia|]. nia. }
    assert (Hf' : (0 < f)%nat).
    { destruct f; [|lia]. cbn in Hq. assert (1 <= n / b) by (apply Z.div_le_lower_bound; lia). lia. }
    destruct (IH _ Hq Hf') as (d & ds & Hd & Hs & Hr).
    assert (Hm : 0 <= n mod b < b) by (apply Z.mod_pos_bound; lia).
    exists d, (ds ++ [digit_chr (n mod b)]). split; [exact Hd|]. split.
    + intros acc. rewrite Hs. rewrite <- app_assoc. reflexivity.
    + intros a t. rewrite <- app_assoc, Hr. cbn [app read_base]. rewrite digit_of_chr by lia.
      f_equal. rewrite app_length. cbn [length]. rewrite Nat.add_1_r.
      rewrite (Nat2Z.inj_succ (S (length ds))), Z.pow_succ_r by lia.
      pose proof (Z.div_mod n b ltac:(lia)). nia.
Qed.

Lemma show_num_spec b n : 2 <= b <= 16 -> 0 <= n ->
  exists d ds, 0 <= d < b /\ show_num b n = digit_chr d :: ds
    /\ forall t, (forall c r, t = c :: r -> digit_of b c = None) -> read_base b 0 (show_num b n ++ t) = (n, t).
Proof.
  intros Hb Hn.
  assert (Hl : 0 <= n < 2 ^ Z.of_nat (S (Z.to_nat (Z.log2 n)))).
  { rewrite Nat2Z.inj_succ, Z2Nat.id by apply Z.log2_nonneg.
    destruct (Z.eq_dec n 0) as [->|N]; [cbn; lia|]. pose proof (Z.log2_spec n ltac:(lia)). lia. }
  destruct (show_base_spec b Hb _ n Hl ltac:(lia)) as (d & ds & Hd & Hs & Hr).
  exists d, ds. split; [exact Hd|]. unfold show_num. rewrite Hs, app_nil_r. split; [reflexivity|].
  intros t Ht. cbn [app]. rewrite Hr. rewrite Z.mul_0_l, Z.add_0_l. destruct t as [|c r]; [reflexivity|].
  cbn [read_base]. rewrite (Ht c r eq_refl). reflexivity.
Qed.

Definition stop (t : chars) : Prop := exists c r, t = c :: r /\ is_space c = true.

Lemma stop_digit b t : b <= 16 -> stop t -> forall c r, t = c :: r -> digit_of b c = None.
Proof.
  intros Hb (c & r & -> & Hs) c' r' E. injection E as <- <-.
  unfold is_space in Hs. unfold digit_of.
  destruct (Z.leb_spec 48 (ord c)); [lia|]. cbn [andb].
  destruct (Z.leb_spec 97 (ord c)); [lia|]. cbn [andb].
  destruct (Z.leb_spec 65 (ord c)); [lia|]. cbn [andb].
  rewrite Z.ltb_irrefl. reflexivity.
Qed.

Lemma scan_num_show b n t : 2 <= b <= 16 -> 0 <= n -> stop t ->
  scan_num b (show_num b n ++ t) = Some (n, t).
Proof.
  intros Hb Hn Ht. destruct (show_num_spec b n Hb Hn) as (d & ds & Hd & E & R).
  specialize (R t (stop_digit b t ltac:(lia) Ht)). rewrite E in *. cbn [app] in *. unfold scan_num.
  rewrite digit_of_chr by lia. rewrite R. reflexivity.
Qed.

Lemma dec_cases d : 0 <= d < 10 -> In (digit_chr d) ["0";"1";"2";"3";"4";"5";"6";"7";"8";"9"]%char.
Proof.
  intros H. assert (I := digit_range d ltac:(lia)). cbn in I.
  repeat (destruct I as [<-|I]; [try lia; cbn; tauto|]). destruct I.
Qed.

Lemma scan_int_digit c s : In c ["0";"1";"2";"3";"4";"5";"6";"7";"8";"9"]%char ->
  scan_int (c :: s) = scan_num 10 (c :: s).
Proof. intros I. cbn in I. repeat (destruct I as [<-|I]; [reflexivity|]). destruct I. Qed.

Lemma scan_int_show z t : stop t -> scan_int (show_int z ++ t) = Some (z, t).
Proof.
  intros Ht. unfold show_int. destruct (Z.ltb_spec z 0) as [L|L].
  - cbn [app]. unfold scan_int. change (skip_ws ("-"%char :: show_num 10 (- z) ++ t)) with ("-"%char :: show_num 10 (- z) ++ t).
    cbv beta iota. rewrite scan_num_show by (auto; lia). rewrite Z.opp_involutive. reflexivity.
  - destruct (show_num_spec 10 z ltac:(lia) L) as (d & ds & Hd & E & _).
    assert (G := scan_num_show 10 z t ltac:(lia) L Ht). rewrite E in *. cbn [app] in *.
    rewrite scan_int_digit by (apply dec_cases; lia). exact G.
Qed.

Lemma scan_int_ws c s : is_space c = true -> scan_int (c :: s) = scan_int s.
Proof. intros H. unfold scan_int. cbn [skip_ws]. rewrite H. reflexivity. Qed.

Lemma nl_stop t : stop (nl :: t).
Proof. exists nl, t. split; reflexivity. Qed.

(* Text that does not start with white space. *)
Definition nows (s : chars) : Prop := skip_ws s = s.

Lemma nows_cons c s : is_space c = false -> nows (c :: s).
Proof. intros H. unfold nows. cbn [skip_ws]. rewrite H. reflexivity. Qed.
Lemma nows_nil : nows []. Proof. reflexivity. Qed.

Lemma skip_nl s : nows s -> skip_ws (nl :: s) = s.
Proof. intros H. change (skip_ws (nl :: s)) with (skip_ws s). exact H. Qed.

Lemma get_int_put z s : nows s -> get_int (put_int z ++ s) = Some (z, s).
Proof.
  intros H. unfold get_int, put_int. rewrite <- app_assoc. cbn [app].
  rewrite scan_int_show by apply nl_stop. rewrite skip_nl by exact H. reflexivity.
Qed.

Lemma get_ptr_put p s : nows s -> get_ptr (put_ptr p ++ s) = Some (Zpos p, s).
Proof.
  intros H. unfold get_ptr, put_ptr, show_ptr. cbn [app]. rewrite <- app_assoc. cbn [app].
  unfold scan_ptr.
  match goal with |- context [skip_ws ?x] => change (skip_ws x) with x end.
  cbv iota beta. rewrite scan_num_show by (try apply nl_stop; lia). cbn beta iota.
  rewrite skip_nl by exact H. reflexivity.
Qed.

Lemma put_ptr_nows p s : nows (put_ptr p ++ s).
Proof. apply nows_cons. reflexivity. Qed.

Lemma put_int_nows z s : nows (put_int z ++ s).
Proof.
  unfold put_int, show_int. destruct (Z.ltb_spec z 0) as [L|L]; [apply nows_cons; reflexivity|].
  destruct (show_num_spec 10 z ltac:(lia) L) as (d & ds & Hd & E & _). rewrite E. cbn [app].
  apply nows_cons. assert (I := dec_cases d Hd). cbn in I.
  repeat (destruct I as [<-|I]; [reflexivity|]). destruct I.
Qed.

(* ---- tables ---- *)
Lemma index_of_spec {A} (eqb : A -> A -> bool) x l i : index_of eqb x l = Some i ->
  exists y, nth_error l i = Some y /\ eqb x y = true.
Proof.
  revert i. induction l as [|y r IH]; intros i H; cbn in H; [discriminate|].
  destruct (eqb x y) eqn:E.
  - injection H as <-. exists y. split; [reflexivity|exact E].
  - destruct (index_of eqb x r) as [j|] eqn:Ej; [|discriminate]. injection H as <-. exact (IH j eq_refl).
Qed.

Lemma find_insert_spec {A} (eqb : A -> A -> bool) (H : forall a b, eqb a b = true -> a = b) x l i l' :
  find_insert eqb x l = (i, l') -> nth_error l' i = Some x /\ exists e, l' = l ++ e.
Proof.
  unfold find_insert. destruct (index_of eqb x l) as [j|] eqn:E; intros E'; injection E' as <- <-.
  - destruct (index_of_spec _ _ _ _ E) as (y & Hy & He). apply H in He. subst y.
    split; [exact Hy|]. exists []. rewrite app_nil_r. reflexivity.
  - split; [|exists [x]; reflexivity]. rewrite nth_error_app2 by lia. rewrite Nat.sub_diag. reflexivity.
Qed.

Lemma chars_eqb_eq a : forall b, chars_eqb a b = true -> a = b.
Proof.
  induction a as [|x a IH]; intros [|y b] H; cbn in H; try discriminate; [reflexivity|].
  apply andb_prop in H. destruct H as [H1 H2]. apply Ascii.eqb_eq in H1. subst y. f_equal. auto.
Qed.
Lemma chars_eqb_refl a : chars_eqb a a = true.
Proof. induction a as [|x a IH]; [reflexivity|]. cbn. rewrite Ascii.eqb_refl. exact IH. Qed.
Lemma entry_eqb_eq a b : entry_eqb a b = true -> a = b.
Proof.
  destruct a as [a s], b as [b t]. unfold entry_eqb. cbn. intros H.
  apply andb_prop in H. destruct H as [H1 H2]. apply andb_prop in H1. destruct H1 as [-> ->].
  apply chars_eqb_eq in H2. subst. reflexivity.
Qed.

Lemma at_idx_nth {A} (l : list A) i : at_idx l (Z.of_nat i) = nth_error l i.
Proof. unfold at_idx. destruct (Z.ltb_spec (Z.of_nat i) 0); [lia|]. rewrite Nat2Z.id. reflexivity. Qed.

(* ---- the strings file ---- *)
Lemma c_str_id s : ~ In "000"%char s -> c_str s = s.
Proof.
  induction s as [|c r IH]; intros H; [reflexivity|]. cbn [c_str].
  destruct (Z.eqb_spec (ord c) 0) as [E|E].
  - exfalso. apply H. left. unfold ord in E.
    assert (nat_of_ascii c = 0%nat) by lia. rewrite <- (ascii_nat_embedding c), H0. reflexivity.
  - f_equal. apply IH. intros I. apply H. right. exact I.
Qed.

Lemma show_int_nat n : 0 <= n -> show_int n = show_num 10 n.
Proof. intros H. unfold show_int. destruct (Z.ltb_spec n 0); [lia|reflexivity]. Qed.

Lemma read_entry_put e s : text_ok (snd e) -> read_entry (put_entry e ++ s) = Some (snd e, s, false).
Proof.
  intros [Hz Hl]. unfold put_entry. rewrite c_str_id by exact Hz. destruct e as [b t]. cbn [snd] in *.
  rewrite show_int_nat by lia. rewrite <- app_assoc. cbn [app]. rewrite <- app_assoc. cbn [app].
  unfold read_entry.
  destruct (show_num_spec 10 (Z.of_nat (length t)) ltac:(lia) ltac:(lia)) as (_ & _ & _ & _ & R).
  rewrite R; [|intros c r E; injection E as <- <-; reflexivity].
  destruct (Z.gtb_spec (Z.of_nat (length t)) str_limit); [unfold str_limit in *; lia|].
  destruct (Z.ltb_spec (Z.of_nat (length (t ++ nl :: s))) (Z.of_nat (length t))).
  { rewrite app_length in *. lia. }
  rewrite Nat2Z.id, firstn_app, Nat.sub_diag, firstn_all, firstn_O, app_nil_r.
  rewrite skipn_app, Nat.sub_diag, skipn_all. cbn [app skipn]. reflexivity.
Qed.

Lemma read_entries_put l : Forall (fun e => text_ok (snd e)) l ->
  forall fuel, (length l < fuel)%nat -> read_entries fuel (strs_file l) = Some (map snd l ++ [[]]).
Proof.
  induction 1 as [|e l He Hl IH]; intros [|f] Hf; try (cbn in Hf; lia).
  - reflexivity.
  - cbn [read_entries]. unfold strs_file. cbn [flat_map].
    change (flat_map put_entry l) with (strs_file l). rewrite read_entry_put by exact He.
    rewrite IH by (cbn in Hf; lia). reflexivity.
Qed.

Lemma strs_file_length l : (length l <= length (strs_file l))%nat.
Proof.
  induction l as [|e l IH]; [cbn; lia|]. unfold strs_file in *. cbn [flat_map].
  rewrite app_length. unfold put_entry at 1. rewrite app_length. cbn [length]. lia.
Qed.
