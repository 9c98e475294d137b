(* Names of wires: what the parser, the printer and the merging of vectors make of them. *)
From Coq Require Import ZArith List Bool Ascii String Lia Permutation.
From Verif Require Import IlistModel IlistSpec IlistThms VnameModel VnameThms VnameMerge PexModel PexSpec.
Import ListNotations.
Open Scope list_scope.
Local Notation length := List.length.

Lemma text_back : forall s, list_ascii_of_string (text s) = s.
Proof. exact list_ascii_of_string_of_list_ascii. Qed.

Definition vec_of (n : chars) (o : index) : vec :=
  match o with
  | None => [Txt (text n)]
  | Some (rs, suf) => [Txt (text (n ++ ["["%char])); Idx rs; Txt (text ("]"%char :: suf))]
  end.

Lemma show_of : forall n o, show_vec (vec_of n o) = named n o.
Proof.
  intros n [[rs suf]|]; unfold named; cbn [vec_of show_vec]; rewrite !text_back, ?app_nil_r; [|reflexivity].
  rewrite <- app_assoc. reflexivity.
Qed.

(* --- parsing -------------------------------------------------------------------------- *)

Lemma skip_digits_tail : forall s, exists a, s = a ++ skip_digits s.
Proof.
  induction s as [|c s [a IH]]; [exists []; reflexivity|]. cbn. destruct (digit c).
  - exists (c :: a). cbn. now rewrite <- IH.
  - exists []. reflexivity.
Qed.

Lemma valid_num_tail : forall s r, valid_num s = Some r -> exists a, s = a ++ r.
Proof.
  intros s r H. unfold valid_num in H. set (s1 := match s with "-"%char :: r => r | _ => s end) in H.
  assert (T : exists a, s = a ++ s1).
  { subst s1. destruct s as [|c s]; [exists []; reflexivity|].
    destruct (ascii_dec c "-"%char) as [->|N]; [exists ["-"%char]; reflexivity|]. exists [].
    destruct c as [[] [] [] [] [] [] [] []]; try reflexivity. exfalso. apply N. reflexivity. }
  clearbody s1. destruct T as [a ->]. destruct s1 as [|c s1]; [discriminate|]. destruct (digit c); [|discriminate].
  injection H as <-. destruct (skip_digits_tail (c :: s1)) as [b B]. exists (a ++ b). rewrite B at 1. apply app_assoc.
Qed.

Lemma valid_has_bracket : forall fuel s, valid_index_f fuel s = true -> In "]"%char s.
Proof.
  induction fuel as [|k IH]; intros s H; [discriminate|]. cbn in H.
  destruct (valid_num s) as [s2|] eqn:E; [|discriminate].
  assert (T : forall r, (match s2 with ":"%char :: r => valid_num r | _ => Some s2 end) = Some r ->
                        exists a, s = a ++ r).
  { intros r R. destruct (valid_num_tail _ _ E) as [a ->].
    destruct s2 as [|c s2]; [injection R as <-; exists a; reflexivity|].
    destruct (ascii_dec c ":"%char) as [->|N].
    - destruct (valid_num_tail _ _ R) as [b ->]. exists (a ++ ":"%char :: b). now rewrite <- app_assoc.
    - exists a. destruct c as [[] [] [] [] [] [] [] []]; try (injection R as <-; reflexivity).
      exfalso. apply N. reflexivity. }
  destruct (match s2 with ":"%char :: r => valid_num r | _ => Some s2 end) as [r|]; [|discriminate].
  destruct (T r eq_refl) as [a ->]. destruct r as [|c r]; [discriminate|].
  destruct (ascii_dec c "]"%char) as [->|N]; [apply in_or_app; right; left; reflexivity|].
  destruct (ascii_dec c ","%char) as [->|M].
  - apply in_or_app. right. right. apply IH. exact H.
  - destruct c as [[] [] [] [] [] [] [] []]; try discriminate; exfalso; first [now apply M|now apply N].
Qed.

Lemma no_bracket_invalid : forall s, ~ In "]"%char s -> valid_index s = false.
Proof.
  intros s H. destruct (valid_index s) eqn:E; [|reflexivity]. destruct H. exact (valid_has_bracket _ _ E).
Qed.

Lemma word_chars : forall n c, word n -> In c n -> letter c.
Proof. intros n c [_ [H _]] I. rewrite Forall_forall in H. exact (H c I). Qed.

Lemma letters_open : forall n, Forall letter n -> ~ In "["%char n.
Proof. intros n H I. rewrite Forall_forall in H. apply H in I. destruct I as [A _]. now apply A. Qed.
Lemma letters_close : forall n, Forall letter n -> ~ In "]"%char n.
Proof. intros n H I. rewrite Forall_forall in H. apply H in I. destruct I as [_ [A _]]. now apply A. Qed.
Lemma letters_star : forall n, Forall letter n -> ~ In "*"%char n.
Proof. intros n H I. rewrite Forall_forall in H. apply H in I. destruct I as [_ [_ A]]. now apply A. Qed.

Lemma readable_of : forall n o, word n -> index_ok o -> readable (vec_of n o).
Proof.
  intros n o [NE [L ST]] O.
  assert (ES : forall r, escaped (n ++ r) = false).
  { intros r. destruct n as [|c n]; [congruence|]. cbn. apply Ascii.eqb_neq. intros ->. exact ST. }
  destruct o as [[rs suf]|]; cbn [vec_of readable]; rewrite !text_back.
  - destruct O as [R S]. assert (NB : ~ In "]"%char (n ++ ["["%char])).
    { intros H. apply in_app_iff in H as [H|[H|[]]]; [exact (letters_close n L H)|discriminate]. }
    split; [destruct n; discriminate|]. split; [now apply no_bracket_invalid|]. split; [apply ES|]. split.
    { intros a b E NB'. exfalso. destruct (exists_last NB') as [b' [c ->]].
      rewrite app_comm_cons, app_assoc in E. apply app_inj_tail in E as [E _].
      apply (letters_open n L). rewrite E. apply in_or_app. right. left. reflexivity. }
    split; [exact R|]. split; [exists n; reflexivity|]. split; [exists suf; reflexivity|].
    split; [discriminate|]. split; [apply valid_close|]. split; [reflexivity|]. split; [|exact I].
    intros a b E _. exfalso. assert (J : In "["%char ("]"%char :: suf)) by (rewrite E; apply in_or_app; right; left; reflexivity).
    destruct J as [J|J]; [discriminate|]. rewrite Forall_forall in S. apply S in J as [J _]. now apply J.
  - split; [exact NE|]. split; [apply no_bracket_invalid, letters_close, L|].
    split; [rewrite <- (app_nil_r n); apply ES|]. split; [|exact I].
    intros a b E _. exfalso. apply (letters_open n L). rewrite E. apply in_or_app. right. left. reflexivity.
Qed.

Definition joined_index (o : index) : index :=
  match o with None => None | Some (rs, suf) => Some (joined rs, suf) end.

Lemma split_named : forall n o, word n -> index_ok o -> split_name (named n o) = vec_of n (joined_index o).
Proof.
  intros n o W O. rewrite <- show_of, split_show by now apply readable_of.
  destruct o as [[rs suf]|]; reflexivity.
Qed.

Lemma merge_from_some : forall rs p, merge_from p rs <> [].
Proof.
  induction rs as [|q rs IH]; intros p; [discriminate|]. cbn. destruct p as [a b], q as [c d].
  repeat match goal with |- context [if ?x then _ else _] => destruct x end; try apply IH; discriminate.
Qed.

Lemma joined_index_ok : forall o, index_ok o -> index_ok (joined_index o).
Proof.
  intros [[rs suf]|] H; [|exact I]. destruct H as [R S]. split; [|exact S].
  destruct rs; [congruence|]. apply merge_from_some.
Qed.

Lemma joined_scalars : forall n o, scalars_of n (joined_index o) = scalars_of n o.
Proof. intros n [[rs suf]|]; [|reflexivity]. cbn. now rewrite joined_ok. Qed.

(* --- scalars -------------------------------------------------------------------------- *)

Lemma show_one : forall i, show_ranges [(i, i)] = show_int i.
Proof. intros i. cbn. unfold show_range. cbn. now rewrite Z.eqb_refl. Qed.

Lemma expand_of : forall n o, map show_vec (expand_vector (vec_of n o)) = scalars_of n o.
Proof.
  intros n [[rs suf]|].
  - cbn [vec_of scalars_of].
    match goal with |- map _ (expand_vector (Txt ?a :: ?v)) = _ =>
      change (expand_vector (Txt a :: v)) with (map (cons (Txt a)) (expand_vector v)) end.
    rewrite expand_idx. cbn [expand_vector map]. rewrite flat_map_concat_map. induction (ints rs) as [|i l IH]; [reflexivity|].
    cbn [map List.concat app]. f_equal.
    + cbn [show_vec]. rewrite !text_back, show_one, app_nil_r, <- app_assoc. reflexivity.
    + exact IH.
  - cbn. now rewrite text_back, app_nil_r.
Qed.

Lemma word_not_const : forall n r, word n -> expand_constant (n ++ r) = None \/ n = ["0"%char].
Proof.
  intros [|a [|b n]] r [NE [L S]]; [congruence| |].
  - destruct (ascii_dec a "0"%char) as [->|N]; [now right|]. left. cbn.
    destruct a as [[] [] [] [] [] [] [] []]; try reflexivity. exfalso. now apply N.
  - left. cbn. destruct (ascii_dec a "0"%char) as [->|N].
    + destruct (ascii_dec b "b"%char) as [->|N]; [destruct S|].
      destruct b as [[] [] [] [] [] [] [] []]; try reflexivity. exfalso. now apply N.
    + destruct a as [[] [] [] [] [] [] [] []]; try reflexivity. exfalso. now apply N.
Qed.

Lemma named_not_const : forall n o, word n -> expand_constant (named n o) = None.
Proof.
  intros n o W. unfold named. destruct (word_not_const n (match o with None => [] | Some (rs, suf) => "["%char :: show_ranges rs ++ "]"%char :: suf end) W) as [E| ->]; [exact E|].
  destruct o as [[rs suf]|]; reflexivity.
Qed.

Lemma expand_named : forall n o, word n -> index_ok o -> expand (named n o) = scalars_of n o.
Proof.
  intros n o W O. unfold expand. rewrite named_not_const by exact W.
  rewrite split_named, expand_of by assumption. apply joined_scalars.
Qed.

Lemma const_bits_ok : forall r, Forall bit r ->
  const_bits (text r) = Some (map (fun c => [Txt (text (const [c]))]) r).
Proof.
  induction r as [|c r IH]; intros H; [reflexivity|]. inversion H as [|? ? B H']; subst. cbn.
  fold (text r). rewrite (IH H'). destruct B as [->|[->| ->]]; reflexivity.
Qed.

Lemma expand_const : forall r, r <> [] -> Forall bit r -> expand (const r) = map (fun c => const [c]) r.
Proof.
  intros r NE B. unfold expand. cbn [const expand_constant]. rewrite const_bits_ok by exact B.
  destruct r as [|c r]; [congruence|]. cbn [map]. f_equal. rewrite map_map. reflexivity.
Qed.

Lemma stands_expand : forall s ss, stands s ss -> expand s = ss.
Proof. intros s ss [n o W O|r NE B]; [now apply expand_named|now apply expand_const]. Qed.

Lemma stand_expand : forall l ls, stand l ls -> flat_map expand l = ls.
Proof. induction 1 as [|s l ss ls H _ IH]; [reflexivity|]. cbn. now rewrite (stands_expand _ _ H), IH. Qed.

Lemma wire_stands : forall s, wire s -> stands s (expand s).
Proof. intros s [n [o [W [O ->]]]]. rewrite expand_named by assumption. now constructor. Qed.

Lemma constant_stands : forall s, constant s -> stands s (expand s).
Proof. intros s [r [NE [B ->]]]. rewrite expand_const by assumption. now constructor. Qed.

Definition known (s : chars) : Prop := wire s \/ constant s.

Lemma known_stands : forall s, known s -> stands s (expand s).
Proof. intros s [H|H]; [now apply wire_stands|now apply constant_stands]. Qed.

Lemma stands_known : forall s ss, stands s ss -> known s.
Proof. intros s ss [n o W O|r NE B]; [left; now exists n, o|right; now exists r]. Qed.

Lemma known_stand : forall l, Forall known l -> stand l (flat_map expand l).
Proof. induction 1; cbn; constructor; auto. now apply known_stands. Qed.

Lemma stand_known : forall l ls, stand l ls -> Forall known l.
Proof. induction 1; constructor; auto. eapply stands_known; eauto. Qed.

Lemma in_names_expand : forall l s, Forall known l -> (in_names l s <-> In s (flat_map expand l)).
Proof.
  intros l s H. rewrite Forall_forall in H. rewrite in_flat_map. split.
  - intros [n [ss [I [S J]]]]. exists n. split; [exact I|]. now rewrite (stands_expand _ _ S).
  - intros [n [I J]]. exists n, (expand n). split; [exact I|]. split; [now apply known_stands, H|exact J].
Qed.

Lemma run_self : forall i, run i i = [i].
Proof. intros i. unfold run. rewrite Z.ltb_irrefl, Z.sub_diag. reflexivity. Qed.

(* A scalar stands for itself. *)
Lemma scalar_self : forall s t, known s -> In t (expand s) -> known t /\ expand t = [t].
Proof.
  intros s t [[n [o [W [O ->]]]]|[r [NE [B ->]]]] H.
  - rewrite expand_named in H by assumption. destruct o as [[rs suf]|].
    + cbn in H. apply in_map_iff in H as [i [<- I]]. destruct O as [R S].
      assert (E : n ++ "["%char :: show_int i ++ "]"%char :: suf = named n (Some ([(i, i)], suf))).
      { unfold named. now rewrite show_one. }
      rewrite E. assert (O' : index_ok (Some ([(i, i)], suf))) by (split; [discriminate|exact S]).
      split; [left; now exists n, (Some ([(i, i)], suf))|]. rewrite expand_named by assumption.
      rewrite <- E. cbn. replace (run i i) with [i]; [reflexivity|]. rewrite run_self. reflexivity.
    + destruct H as [<-|[]]. assert (E : named n None = n) by (apply app_nil_r).
      split; [left; now exists n, None|]. rewrite <- E at 1. now rewrite expand_named.
  - rewrite expand_const in H by assumption. apply in_map_iff in H as [c [<- I]].
    assert (B' : Forall bit [c]) by (constructor; [rewrite Forall_forall in B; auto|constructor]).
    assert (N : [c] <> []) by discriminate.
    split; [right; now exists [c]|]. now rewrite expand_const.
Qed.

Lemma scalar_wire : forall s t, wire s -> In t (expand s) -> wire t.
Proof.
  intros s t W I. destruct (scalar_self s t (or_introl W) I) as [[T|[r [_ [_ ->]]]] _]; [exact T|]. exfalso.
  destruct W as [n [o [W [O ->]]]]. rewrite expand_named in I by assumption.
  assert (E : exists x, const r = n ++ x /\ match x with [] => True | c :: _ => c = "["%char end).
  { destruct o as [[rs suf]|]; cbn in I.
    - apply in_map_iff in I as [i [<- _]]. eexists. split; [reflexivity|reflexivity].
    - destruct I as [<-|[]]. exists []. split; [now rewrite app_nil_r|exact I]. }
  destruct E as [x [E X]]. destruct W as [NE [L S]]. destruct n as [|a [|b n]]; [congruence| |].
  - injection E as E1 E2. subst. discriminate X.
  - injection E as E1 E2 E3. subst. exact S.
Qed.

Lemma expand_some : forall s, known s -> expand s <> [].
Proof.
  intros s [[n [o [W [O ->]]]]|[r [NE [B ->]]]].
  - rewrite expand_named by assumption. destruct o as [[rs suf]|]; [|discriminate].
    destruct O as [R _]. destruct (ints_nonempty rs R) as [i I]. cbn. destruct (ints rs); [destruct I|discriminate].
  - rewrite expand_const by assumption. destruct r; [congruence|discriminate].
Qed.

(* --- base names ----------------------------------------------------------------------- *)

Lemma cut_letters : forall n r, ~ In "["%char n -> cut (n ++ r) = n ++ cut r.
Proof.
  induction n as [|c n IH]; intros r H; [reflexivity|]. cbn.
  destruct (Ascii.eqb_spec c "["%char) as [->|N]; [destruct H; now left|].
  rewrite IH; [reflexivity|]. intros I. apply H. now right.
Qed.

Lemma cut_named : forall n o, word n -> cut (named n o) = n.
Proof.
  intros n o [_ [L _]]. unfold named. rewrite cut_letters by now apply letters_open.
  destruct o as [[rs suf]|]; cbn; now rewrite app_nil_r.
Qed.

Lemma base_named : forall n o, word n -> index_ok o -> base_name (split_name (named n o)) = Ok n.
Proof.
  intros n o W O. rewrite split_named by assumption.
  destruct W as [_ [L _]].
  destruct o as [[rs suf]|]; cbn [joined_index vec_of base_name]; rewrite text_back.
  - rewrite cut_letters by now apply letters_open. cbn. now rewrite app_nil_r.
  - rewrite <- (app_nil_r n), cut_letters by now apply letters_open. reflexivity.
Qed.

Lemma cut_scalar : forall n o t, word n -> In t (scalars_of n o) -> cut t = n.
Proof.
  intros n o t [_ [L _]] H. destruct o as [[rs suf]|]; cbn in H.
  - apply in_map_iff in H as [i [<- _]]. rewrite cut_letters by now apply letters_open. cbn. now rewrite app_nil_r.
  - destruct H as [<-|[]]. rewrite <- (app_nil_r n), cut_letters by now apply letters_open. reflexivity.
Qed.

Lemma wire_cut : forall s t, wire s -> In t (expand s) -> cut t = cut s.
Proof.
  intros s t [n [o [W [O ->]]]] I. rewrite expand_named in I by assumption.
  rewrite (cut_scalar n o t W I). symmetry. now apply cut_named.
Qed.

Lemma base_wire : forall s, wire s -> base_name (split_name s) = Ok (cut s).
Proof. intros s [n [o [W [O ->]]]]. rewrite base_named by assumption. now rewrite cut_named. Qed.

(* --- merging -------------------------------------------------------------------------- *)

Definition kvec (v : vec) : Prop :=
  (exists n o, word n /\ index_ok o /\ v = vec_of n o) \/
  (exists r, r <> [] /\ Forall bit r /\ v = [Txt (text (const r))]).

Lemma split_const : forall r, Forall bit r -> split_name (const r) = [Txt (text (const r))].
Proof.
  intros r B. assert (NI : forall x, In x (const r) -> x <> "["%char /\ x <> "]"%char).
  { intros x [<-|[<-|I]]; [split; discriminate|split; discriminate|]. rewrite Forall_forall in B.
    apply B in I. destruct I as [->|[->| ->]]; split; discriminate. }
  assert (R : readable [Txt (text (const r))]).
  { cbn [readable]. rewrite text_back. split; [discriminate|]. split.
    - apply no_bracket_invalid. intros I. apply NI in I. now apply I.
    - split; [reflexivity|]. split; [|exact I]. intros a b E _. exfalso.
      assert (J : In "["%char (const r)) by (rewrite E; apply in_or_app; right; now left).
      apply NI in J. now apply J. }
  assert (S := split_show _ R). cbn [show_vec] in S. rewrite text_back, app_nil_r in S. rewrite S. reflexivity.
Qed.

Lemma split_known : forall s, known s -> kvec (split_name s).
Proof.
  intros s [[n [o [W [O ->]]]]|[r [NE [B ->]]]].
  - left. exists n, (joined_index o). rewrite split_named by assumption. repeat split; auto. 1-3: apply W. now apply joined_index_ok.
  - right. exists r. rewrite split_const by exact B. auto.
Qed.

Lemma known_show : forall v, kvec v -> known (show_vec v) /\ expand (show_vec v) = map show_vec (scalars v).
Proof.
  intros v [[n [o [W [O ->]]]]|[r [NE [B ->]]]].
  - rewrite show_of. split; [left; now exists n, o|]. rewrite expand_named by assumption.
    rewrite scalars_other; [now rewrite expand_of|].
    destruct W as [NE [L S]]. destruct n as [|a n]; [congruence|].
    destruct o as [[rs suf]|]; cbn.
    + destruct a as [[] [] [] [] [] [] [] []]; try reflexivity. destruct n as [|b n]; [reflexivity|].
      cbn. destruct b as [[] [] [] [] [] [] [] []]; try reflexivity. destruct S.
    + destruct a as [[] [] [] [] [] [] [] []]; try reflexivity. destruct n as [|b n]; [reflexivity|].
      cbn. destruct b as [[] [] [] [] [] [] [] []]; try reflexivity. destruct S.
  - cbn [show_vec]. rewrite text_back, app_nil_r. split; [right; now exists r|].
    rewrite expand_const by assumption. unfold const at 2. cbn [text string_of_list_ascii scalars].
    fold (text r). rewrite const_bits_ok by exact B. destruct r as [|c r]; [congruence|]. cbn [map]. f_equal.
    now rewrite map_map.
Qed.

Lemma kvec_signature : forall v t, kvec v -> signature v = "0"%char :: "b"%char :: t ->
  exists r, r <> [] /\ Forall bit r /\ v = [Txt (text (const r))].
Proof.
  intros v t [[n [o [W [O ->]]]]|H] E; [|exact H]. exfalso. destruct W as [NE [L S]].
  destruct o as [[rs suf]|]; cbn [vec_of signature] in E; rewrite !text_back in E.
  - destruct n as [|a [|b n]]; [congruence| |].
    + injection E as -> E. discriminate.
    + injection E as -> -> E. exact S.
  - rewrite app_nil_r in E. rewrite E in S. exact S.
Qed.

Lemma kvec_plain : forall v, kvec v -> plain v.
Proof.
  assert (T : forall s, s <> [] -> text s <> EmptyString) by (intros [|c s] H; [congruence|discriminate]).
  intros v [[n [o [W [O ->]]]]|[r [NE [B ->]]]].
  - destruct W as [NE [L S]]. destruct o as [[rs suf]|]; cbn [vec_of plain]; rewrite !text_back.
    + destruct O as [R SU]. split; [apply T; destruct n; discriminate|]. split.
      { intros I. apply in_app_iff in I as [I|[I|[]]]; [exact (letters_star n L I)|discriminate]. }
      split; [exact I|]. split; [discriminate|]. split; [|split; exact I].
      intros [I|I]; [discriminate|]. rewrite Forall_forall in SU. apply SU in I as [_ I]. now apply I.
    + split; [now apply T|]. split; [now apply letters_star|]. split; exact I.
  - cbn [plain]. rewrite text_back. split; [discriminate|]. split; [|split; exact I].
    intros [I|[I|I]]; [discriminate|discriminate|]. rewrite Forall_forall in B. apply B in I.
    destruct I as [I|[I|I]]; discriminate.
Qed.

Lemma kvec_good : forall l, Forall kvec l -> good_names l /\ Forall one_dim l.
Proof.
  intros l H. rewrite Forall_forall in H. split; [split; [|split]|].
  - apply Forall_forall. intros v V t E. destruct (kvec_signature v t (H v V) E) as [r [NE [B ->]]].
    unfold const. cbn [text string_of_list_ascii]. fold (text r).
    exists (text r). destruct r as [|c r]; [congruence|]. rewrite const_bits_ok by exact B.
    do 2 eexists. split; reflexivity.
  - intros v w V W E. apply plain_alike; auto using kvec_plain.
  - apply Forall_forall. intros v V. destruct (H v V) as [[n [o [W [O ->]]]]|[r [_ [_ ->]]]].
    + destruct o as [[rs suf]|]; repeat constructor. destruct O as [R _]. destruct rs; [congruence|exact I].
    + repeat constructor.
  - apply Forall_forall. intros v V. destruct (H v V) as [[n [o [W [O ->]]]]|[r [_ [_ ->]]]].
    + destruct o as [[rs suf]|]; cbv; lia.
    + cbv. lia.
Qed.

Lemma compare_parts : forall a b p x y q, compare a b = Some (Differ p x y q) -> a = p ++ Idx x :: q.
Proof.
  induction a as [|[n|rs] a IH]; intros b p x y q H; [discriminate| |].
  - destruct b as [|e b]; [discriminate|]. cbn in H. destruct (compare a b) as [[|p' x' y' q'|]|] eqn:E; try discriminate.
    injection H as <- <- <- <-. cbn. f_equal. eapply IH; eauto.
  - destruct b as [|[m|ss] b]; try discriminate. cbn in H. destruct (list_eqb rs ss).
    + destruct (compare a b) as [[|p' x' y' q'|]|] eqn:E; try discriminate.
      injection H as <- <- <- <-. cbn. f_equal. eapply IH; eauto.
    + destruct (same_rest a b) as [[]|]; try discriminate. injection H as <- <- <- <-. reflexivity.
Qed.

Lemma kvec_swap : forall p x r q, r <> [] -> kvec (p ++ Idx x :: q) -> kvec (p ++ Idx r :: q).
Proof.
  intros p x r q R [[n [o [W [O E]]]]|[s [_ [_ E]]]].
  - destruct o as [[rs suf]|]; cbn in E.
    + destruct p as [|e [|f [|g p]]]; cbn in E; try discriminate.
      * injection E as -> -> ->. left. exists n, (Some (r, suf)). destruct O as [_ S]. repeat split; auto; apply W.
      * injection E as E1 E2 E3. destruct p; discriminate.
    + destruct p as [|e [|f p]]; discriminate.
  - destruct p as [|e [|f p]]; discriminate.
Qed.

Lemma kvec_join : forall c d, kvec c -> kvec d -> is_const c = true -> is_const d = true -> kvec (join_const c d).
Proof.
  intros c d C D IC ID.
  assert (G : forall v, kvec v -> is_const v = true -> exists r, r <> [] /\ Forall bit r /\ v = [Txt (text (const r))]).
  { intros v V I. destruct (is_const_sig v I) as [t T]. exact (kvec_signature v t V T). }
  destruct (G c C IC) as [r [NE [B ->]]]. destruct (G d D ID) as [r' [_ [B' ->]]].
  right. exists (r ++ r'). split; [destruct r; [congruence|discriminate]|]. split; [now apply Forall_app|].
  cbn. do 4 f_equal. clear. induction r as [|c r IH]; [reflexivity|]. cbn. now rewrite IH.
Qed.

Lemma merge_step_kvec : forall s s', merge_step s = Some s' -> Forall kvec (unzip (m_z s)) -> Forall kvec (unzip (m_z s')).
Proof.
  intros [z nc alts] s' H K. unfold merge_step in H. cbn [m_z m_nc m_alts] in *.
  rewrite <- wrap_unzip in K. destruct (wrap z) as [[a c] b]. cbn [unzip] in K.
  apply Forall_app in K as [KA KB]. inversion KB as [|? ? KC KB']; subst.
  destruct b as [|d b].
  - destruct (is_const c) eqn:IC; injection H as <-; cbn [m_z unzip]; apply Forall_app; split; auto.
    constructor; [now apply kvec_join|constructor].
  - inversion KB' as [|? ? KD KB2]; subst.
    assert (MV : Forall kvec (unzip (c :: a, d, b))).
    { cbn. rewrite <- app_assoc. apply Forall_app. split; [exact KA|]. cbn. auto. }
    destruct (is_const c && is_const d) eqn:CD.
    { apply andb_true_iff in CD as [IC ID]. injection H as <-. cbn [m_z unzip]. apply Forall_app. split; [exact KA|].
      constructor; [now apply kvec_join|assumption]. }
    destruct (sig_eqb c d); [|injection H as <-; exact MV].
    destruct (compare c d) as [[|p x y q|]|] eqn:CP; try discriminate; try (injection H as <-; exact MV).
    destruct x as [|x0 x]; [discriminate|]. destruct y as [|y0 y]; [discriminate|].
    destruct (join_ranges (x0 :: x) (y0 :: y)) as [e r] eqn:J. injection H as <-. cbn [m_z unzip].
    apply Forall_app. split; [exact KA|]. constructor; [|assumption].
    apply (kvec_swap p (x0 :: x)); [|now rewrite <- (compare_parts _ _ _ _ _ _ CP)].
    destruct (join_ranges_ok (x0 :: x) (y0 :: y) e r) as [_ N]; auto; discriminate.
Qed.

Lemma merge_loop_kvec : forall fuel s o, merge_loop fuel s = Some o -> Forall kvec (unzip (m_z s)) -> Forall kvec o.
Proof.
  induction fuel as [|k IH]; intros s o H K; [discriminate|]. cbn [merge_loop] in H.
  destruct ((1 <? m_alts s)%nat && (m_nc s <? m_alts s)%nat); [|injection H as <-; exact K].
  destruct (merge_step s) as [s'|] eqn:E; [|discriminate]. apply (IH s' o H). now apply (merge_step_kvec s).
Qed.

Lemma contig_known : forall v, kvec v ->
  Forall known (map show_vec (contig v)) /\ flat_map expand (map show_vec (contig v)) = map show_vec (scalars v).
Proof.
  intros v K. assert (Q := known_show v K). destruct K as [[n [o [W [O ->]]]]|[r [NE [B ->]]]].
  - destruct o as [[rs suf]|].
    + destruct Q as [_ Q]. rewrite <- Q, show_of, expand_named by assumption. destruct O as [R S]. clear Q R.
      assert (C : contig (vec_of n (Some (rs, suf))) = map (fun p => vec_of n (Some ([p], suf))) rs).
      { cbn [vec_of contig]. induction rs as [|p rs IH]; [reflexivity|]. cbn [flat_map map app]. now rewrite <- IH. }
      rewrite C. clear C. induction rs as [|p rs [I1 I2]]; [split; [constructor|reflexivity]|].
      assert (OK : index_ok (Some ([p], suf))) by (split; [discriminate|exact S]).
      cbn [map flat_map]. rewrite show_of. split; [constructor; [left; now exists n, (Some ([p], suf))|exact I1]|].
      rewrite I2, expand_named by assumption. cbn [scalars_of]. rewrite !ints_cons, !map_app.
      cbn [ints flat_map map]. now rewrite app_nil_r.
    + cbn [vec_of contig map flat_map] in *. rewrite app_nil_r. destruct Q. split; [constructor; [assumption|constructor]|assumption].
  - cbn [contig map flat_map] in *. rewrite app_nil_r. destruct Q. split; [constructor; [assumption|constructor]|assumption].
Qed.

Lemma contigs_known : forall l, Forall kvec l ->
  Forall known (map show_vec (flat_map contig l))
  /\ flat_map expand (map show_vec (flat_map contig l)) = map show_vec (all_scalars l).
Proof.
  induction 1 as [|v l K _ [I1 I2]]; [split; [constructor|reflexivity]|].
  destruct (contig_known v K) as [C1 C2]. cbn [flat_map]. unfold all_scalars. cbn [flat_map]. fold (all_scalars l).
  rewrite !map_app, flat_map_app, C2, I2. split; [apply Forall_app; auto|reflexivity].
Qed.

Lemma split_scalars : forall s, known s -> map show_vec (scalars (split_name s)) = expand s.
Proof.
  intros s K. destruct (known_show _ (split_known s K)) as [_ E]. rewrite <- E.
  destruct K as [[n [o [W [O ->]]]]|[r [NE [B ->]]]].
  - rewrite split_named by assumption. rewrite show_of, !expand_named; auto using joined_index_ok. apply joined_scalars.
  - rewrite split_const by exact B. cbn [show_vec]. now rewrite text_back, app_nil_r.
Qed.

Lemma splits_scalars : forall l, Forall known l -> map show_vec (all_scalars (map split_name l)) = flat_map expand l.
Proof.
  induction 1 as [|s l K _ IH]; [reflexivity|]. unfold all_scalars. cbn [map flat_map].
  fold (all_scalars (map split_name l)). now rewrite map_app, IH, split_scalars.
Qed.

Theorem merge_names_ok : forall l, Forall known l ->
  exists m, merge_names l = Ok m /\ Forall known m /\ flat_map expand m = flat_map expand l.
Proof.
  intros l K. assert (KV : Forall kvec (map split_name l)).
  { rewrite Forall_forall in *. intros v V. apply in_map_iff in V as [s [<- I]]. now apply split_known, K. }
  destruct (kvec_good _ KV) as [G D]. destruct (merge_vectors_ok _ G) as [o [O1 [_ [_ O2]]]].
  unfold merge_names. rewrite O1. eexists. split; [reflexivity|].
  assert (KO : Forall kvec o).
  { destruct (map split_name l) as [|h t]; [injection O1 as <-; constructor|].
    exact (merge_loop_kvec _ _ _ O1 KV). }
  destruct (contigs_known o KO) as [C1 C2]. split; [exact C1|]. rewrite C2, (O2 D). now apply splits_scalars.
Qed.

(* --- extracting ----------------------------------------------------------------------- *)

Lemma compress_some : forall fuel a b, a <> [] -> compress_f fuel a b <> [].
Proof.
  induction fuel as [|k IH]; intros [|[ua la] ra] b H; try congruence; [destruct b; discriminate|].
  destruct b as [|[ub lb] rb]; [discriminate|]. cbn [compress_f].
  destruct (ua <? ub)%Z; cbv beta iota zeta.
  all: match goal with |- context [if ?x then _ else _] => destruct x; [discriminate|] end.
  all: match goal with |- context [if ?x then compress_f _ _ _ else _] => destruct x; [apply IH; discriminate|] end.
  all: apply IH.
  - destruct rb as [|[? ?] ?]; [discriminate|]. destruct (_ =? _)%Z; discriminate.
  - destruct ra as [|[? ?] ?]; [discriminate|]. destruct (_ =? _)%Z; discriminate.
Qed.

Lemma kvec_part : forall p x q, kvec (p ++ Idx x :: q) -> x <> [].
Proof.
  intros p x q K. destruct (kvec_good [p ++ Idx x :: q]) as [[_ [_ G]] _]; [now constructor|].
  inversion G; subst. eapply indexed_part; eauto.
Qed.

Lemma extract_loop_kvec : forall fuel s o, extract_loop fuel s = Some o -> Forall kvec (e_l s) -> Forall kvec o.
Proof.
  induction fuel as [|k IH]; intros s o H K; [discriminate|]. cbn [extract_loop] in H.
  destruct ((1 <? length (e_l s))%nat && (e_nc s <=? length (e_l s))%nat); [|injection H as <-; exact K].
  destruct (extract_step s) as [s'|] eqn:E; [|discriminate]. apply (IH s' o H). clear IH H.
  unfold extract_step in E. destruct (e_l s) as [|c [|d b]] eqn:L; [injection E as <-; now rewrite L|injection E as <-; now rewrite L|].
  inversion K as [|? ? KC K1]; subst. inversion K1 as [|? ? KD KB]; subst.
  assert (MV : Forall kvec (d :: b ++ [c])) by (constructor; [exact KD|]; apply Forall_app; auto).
  destruct (negb (sig_eqb c d) || is_const c); [injection E as <-; exact MV|].
  destruct (compare c d) as [[|p x y q|]|] eqn:CP; try discriminate; injection E as <-; cbn [e_l]; auto.
  constructor; [|exact KB]. rewrite (compare_parts _ _ _ _ _ _ CP) in KC.
  apply (kvec_swap p x); [|exact KC]. apply compress_some. eapply kvec_part; eauto.
Qed.

Lemma canonical_some : forall fuel rs, rs <> [] -> canonical_f fuel rs <> [].
Proof.
  induction fuel as [|k IH]; intros [|[u0 l0] rs] H; try congruence; [exact H|]. cbn [canonical_f].
  match goal with |- context [if ?x then _ else _] => destruct x; [discriminate|] end.
  destruct (u0 <? l0)%Z; cbv beta iota zeta.
  all: destruct (canonical_f k rs) as [|[ru rl] more]; [discriminate|].
  all: repeat match goal with |- context [if ?x then _ else _] => destruct x end; try discriminate; apply IH; discriminate.
Qed.

Lemma canonical_kvec : forall v, kvec v -> kvec (canonical_vec v).
Proof.
  intros v [[n [o [W [O ->]]]]|[r [NE [B ->]]]].
  - left. exists n, (match o with None => None | Some (rs, suf) => Some (canonical rs, suf) end).
    split; [exact W|]. destruct o as [[rs suf]|]; [|split; [exact I|reflexivity]]. split; [|reflexivity].
    destruct O as [R S]. split; [now apply canonical_some|exact S].
  - right. exists r. auto.
Qed.

Theorem extract_names_ok : forall srt l, (forall x, Permutation (srt x) x) ->
  Forall wire l -> Forall (fun s => tidy (split_name s)) l ->
  exists m, extract_names srt l = Ok m /\ Forall wire m /\
    forall s, In s (flat_map expand m) <-> In s (flat_map expand l).
Proof.
  intros srt l P W T.
  assert (K : Forall known l) by (eapply Forall_impl; [|exact W]; intros; now left).
  assert (KV : Forall kvec (map split_name l)).
  { rewrite Forall_forall in *. intros v V. apply in_map_iff in V as [s [<- I]]. now apply split_known, K. }
  assert (TV : Forall tidy (map split_name l)).
  { rewrite Forall_forall in *. intros v V. apply in_map_iff in V as [s [<- I]]. now apply T. }
  destruct (kvec_good _ KV) as [G _].
  destruct (extract_vectors_ok _ (srt (map canonical_vec (map split_name l))) G TV (P _)) as [o [O1 O2]].
  unfold extract_names. rewrite O1. eexists. split; [reflexivity|].
  assert (KO : Forall kvec o).
  { apply (extract_loop_kvec _ _ _ O1). cbn [e_l]. eapply Permutation_Forall; [apply Permutation_sym, P|].
    rewrite Forall_forall in *. intros v V. apply in_map_iff in V as [w [<- I]]. now apply canonical_kvec, KV. }
  assert (EX : flat_map expand (map show_vec o) = map show_vec (all_scalars o)).
  { clear - KO. induction KO as [|v o K _ IH]; [reflexivity|]. cbn [map flat_map]. unfold all_scalars. cbn [flat_map].
    fold (all_scalars o). rewrite map_app, IH. now destruct (known_show v K) as [_ ->]. }
  assert (SE : forall s, In s (flat_map expand (map show_vec o)) <-> In s (flat_map expand l)).
  { intros s. rewrite EX, <- (splits_scalars l K), !in_map_iff.
    split; intros [v [V I]]; exists v; (split; [exact V|now apply O2]). }
  split; [|exact SE].
  apply Forall_forall. intros x X. assert (KX : known x).
  { apply in_map_iff in X as [v [<- I]]. rewrite Forall_forall in KO. now apply known_show, KO. }
  destruct KX as [KX|KX]; [exact KX|]. exfalso.
  assert (NX := expand_some x (or_intror KX)). destruct (expand x) as [|t ts] eqn:E; [congruence|].
  assert (I : In t (flat_map expand l)) by (apply SE; apply in_flat_map; exists x; split; [exact X|rewrite E; now left]).
  apply in_flat_map in I as [w [I J]]. rewrite Forall_forall in W. assert (WT := scalar_wire w t (W w I) J).
  destruct KX as [r [NE [B ->]]]. rewrite expand_const in E by assumption. destruct r as [|c r]; [congruence|].
  injection E as <- _. destruct WT as [n [o' [[N1 [L1 S1]] [_ E]]]]. unfold named in E.
  destruct n as [|a [|b n]]; [congruence| |].
  - destruct o' as [[rs suf]|]; injection E; intros; subst; discriminate.
  - injection E as E1 E2. subst. exact S1.
Qed.
