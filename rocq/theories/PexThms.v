(* Unfolding an instance keeps the meaning of a design. *)
From Coq Require Import ZArith List Bool Ascii String Lia Permutation FinFun.
From Verif Require Import IlistModel IlistSpec IlistThms VnameModel VnameThms VnameMerge PexModel PexSpec PexName.
Import ListNotations.
Open Scope list_scope.
Local Notation length := List.length.

(* --- new names ----------------------------------------------------------------------- *)

Lemma chars_eqb_eq : forall a b, chars_eqb a b = true <-> a = b.
Proof. intros a b. unfold chars_eqb. destruct (list_eq_dec ascii_dec a b); split; congruence. Qed.

Lemma mem_in : forall a l, mem a l = true <-> In a l.
Proof.
  intros a l. unfold mem. rewrite existsb_exists. split.
  - intros [x [I E]]. apply chars_eqb_eq in E. now subst.
  - intros I. exists a. split; [exact I|]. now apply chars_eqb_eq.
Qed.

Lemma wire_not_const : forall s, wire s -> ~ constant s.
Proof.
  intros s [n [o' [[N1 [L1 S1]] [_ E]]]] [r [_ [_ ->]]]. unfold named, const in E.
  destruct n as [|a [|b n]]; [congruence| |].
  - destruct o' as [[rs suf]|]; injection E; intros; subst; discriminate.
  - injection E as E1 E2. subst. exact S1.
Qed.

Definition count (z : Z) (w : chars) : chars := "_"%char :: "$"%char :: show_int z ++ w.

Lemma show_digits_of : forall z, (0 <= z)%Z -> exists c ds, show_int z = c :: ds /\ Forall (fun c => digit c = true) (c :: ds)
  /\ forall s, read_digits 0 ((c :: ds) ++ s) = read_digits z s.
Proof.
  intros z Z0. unfold show_int. destruct (Z.ltb_spec z 0); [lia|].
  destruct (show_nat_ok z Z0) as [ds [-> [F [N R]]]]. destruct ds as [|c ds]; [congruence|]. now exists c, ds.
Qed.

Lemma digit_no : forall c, digit c = true -> is_space c = false /\ c <> "-"%char /\ c <> "+"%char /\ letter c.
Proof.
  intros c D. unfold letter.
  destruct c as [[] [] [] [] [] [] [] []]; vm_compute in D; try discriminate D; repeat split; try reflexivity; discriminate.
Qed.

Lemma scan_digits : forall c ds w z, Forall (fun c => digit c = true) (c :: ds) ->
  (forall s, read_digits 0 ((c :: ds) ++ s) = read_digits z s) -> stop w -> scan_d ((c :: ds) ++ w) = Some z.
Proof.
  intros c ds w z F R S. inversion F as [|? ? D _]; subst. destruct (digit_no c D) as [SP [M [P _]]].
  unfold scan_d. cbn [app skip_space]. rewrite SP.
  assert (G : (if digit c then Some (fst (read_digits 0 (c :: ds ++ w))) else None) = Some z).
  { rewrite D. change (c :: ds ++ w) with ((c :: ds) ++ w). rewrite R, read_stop by exact S. reflexivity. }
  clear R F. destruct c as [[] [] [] [] [] [] [] []]; try exact G; exfalso; first [apply M; reflexivity|apply P; reflexivity].
Qed.

Lemma scan_count : forall z w, (0 <= z)%Z -> stop w -> scan_d (show_int z ++ w) = Some z /\ skip_digits (show_int z ++ w) = w.
Proof.
  intros z w Z0 S. destruct (show_digits_of z Z0) as [c [ds [-> [F R]]]]. split.
  - now apply scan_digits.
  - rewrite skip_digits_app by exact F. now apply skip_stop.
Qed.

Lemma count_inj : forall z z' w, (0 <= z)%Z -> (0 <= z')%Z -> stop w -> count z w = count z' w -> z = z'.
Proof.
  intros z z' w A B S E. injection E as E. destruct (scan_count z w A S) as [X _]. destruct (scan_count z' w B S) as [Y _]. congruence.
Qed.

Lemma next_count : forall old z w, (0 <= z)%Z -> stop w -> next_name old (count z w) = count (z + 1) w.
Proof.
  intros old z w Z0 S. unfold count. cbn [next_name]. destruct (scan_count z w Z0 S) as [-> ->]. reflexivity.
Qed.

Lemma digits_of : forall n, Forall letter n -> exists ds w, n = ds ++ w /\ Forall (fun c => digit c = true) ds /\ stop w.
Proof.
  induction n as [|c n IH]; intros L; [exists [], []; repeat split; constructor|]. inversion L as [|? ? LC L']; subst.
  destruct (digit c) eqn:D.
  - destruct (IH L') as [ds [w [-> [F S]]]]. exists (c :: ds), w. repeat split; auto.
  - exists [], (c :: n). repeat split; auto. 
Qed.

Lemma read_digits_ge : forall ds a s, (0 <= a)%Z -> Forall (fun c => digit c = true) ds -> stop s ->
  (0 <= fst (read_digits a (ds ++ s)))%Z.
Proof.
  induction ds as [|c ds IH]; intros a s A F S; [cbn [app]; now rewrite read_stop|].
  inversion F as [|? ? D F']; subst. cbn [app read_digits]. rewrite D. apply IH; auto.
  unfold digit_val. unfold digit in D. apply andb_true_iff in D as [D _]. apply Z.leb_le in D. lia.
Qed.

Definition tail_of (o : index) : chars :=
  match o with None => [] | Some (rs, suf) => "["%char :: show_ranges rs ++ "]"%char :: suf end.

Lemma named_tail : forall n o, named n o = n ++ tail_of o.
Proof. reflexivity. Qed.

Lemma tail_stop : forall o, stop (tail_of o).
Proof. intros [[rs suf]|]; [reflexivity|exact I]. Qed.

(* The second name that is tried. *)
Lemma next_first : forall n o, word n -> steady (named n o) ->
  exists z w, (1 <= z)%Z /\ Forall letter w /\ stop (w ++ tail_of o) /\
    next_name (named n o) (named n o) = count z (w ++ tail_of o).
Proof.
  intros n o [NE [L ST]] SD. rewrite named_tail in *. assert (SX := tail_stop o).
  assert (NX : forall c r, tail_of o = c :: r -> c = "["%char).
  { intros c r E. destruct o as [[rs suf]|]; [injection E; auto|discriminate]. }
  set (x := tail_of o) in *. clearbody x.
  assert (A : next_name (n ++ x) (n ++ x) = list_ascii_of_string "_$1_" ++ n ++ x ->
     exists z w, (1 <= z)%Z /\ Forall letter w /\ stop (w ++ x) /\ next_name (n ++ x) (n ++ x) = count z (w ++ x)).
  { intros ->. exists 1%Z, ("_"%char :: n). split; [lia|]. split; [|split; reflexivity].
    constructor; [repeat split; discriminate|exact L]. }
  assert (NS : forall y, (forall r, y <> "_"%char :: "$"%char :: r) ->
     next_name (n ++ x) y = list_ascii_of_string "_$1_" ++ n ++ x).
  { intros [|a [|b r]] C; unfold next_name; [reflexivity|destruct a as [[] [] [] [] [] [] [] []]; reflexivity|].
    destruct a as [[] [] [] [] [] [] [] []]; try reflexivity.
    destruct b as [[] [] [] [] [] [] [] []]; try reflexivity. exfalso. now apply (C r). }
  assert (DN : (exists n2, n = "_"%char :: "$"%char :: n2) \/ forall r, n ++ x <> "_"%char :: "$"%char :: r).
  { destruct n as [|a [|b n2]]; [congruence| |].
    - right. intros r E. destruct x as [|c x]; [discriminate|]. assert (Q := NX _ _ eq_refl). subst. discriminate.
    - destruct (ascii_dec a "_"%char) as [->|N]; [|right; intros r E; injection E; intros; congruence].
      destruct (ascii_dec b "$"%char) as [->|N]; [|right; intros r E; injection E; intros; congruence].
      left. now exists n2. }
  destruct DN as [[n2 ->]|DN]; [|now apply A, NS].
  inversion L as [|? ? _ L1]; subst. inversion L1 as [|? ? _ L2]; subst. clear NS L L1.
  destruct (digits_of n2 L2) as [ds [w [-> [F S]]]].
  assert (SWX : stop (w ++ x)) by (destruct w; [exact SX|exact S]).
  destruct ds as [|d ds].
  - apply A. cbn [app] in SD |- *. unfold next_name.
    assert (SN : scan_d (w ++ x) = None); [|rewrite SN; reflexivity].
    destruct (w ++ x) as [|c y] eqn:WX; [reflexivity|]. cbn in SD. destruct SD as [M [P SP]].
    cbn in SWX. apply not_true_is_false in SP. unfold scan_d. cbn [skip_space]. rewrite SP.
    clear - M P SWX. destruct c as [[] [] [] [] [] [] [] []]; try reflexivity;
      first [exfalso; apply M; reflexivity|exfalso; apply P; reflexivity|vm_compute in SWX; discriminate SWX].
  - set (z := fst (read_digits 0 ((d :: ds) ++ w ++ x))).
    assert (Z0 : (0 <= z)%Z) by (apply read_digits_ge; [lia|exact F|exact SWX]).
    exists (z + 1)%Z, w. split; [lia|].
    apply Forall_app in L2 as [_ L2]. split; [exact L2|]. split; [exact SWX|].
    assert (SC : scan_d ((d :: ds) ++ w ++ x) = Some z).
    { inversion F as [|? ? D _]; subst. destruct (digit_no d D) as [SP [M [P _]]].
      unfold scan_d. cbn [app skip_space]. rewrite SP.
      assert (G : (if digit d then Some (fst (read_digits 0 (d :: ds ++ w ++ x))) else None) = Some z) by (rewrite D; reflexivity).
      clearbody z. clear - G M P. destruct d as [[] [] [] [] [] [] [] []]; try exact G; exfalso; first [apply M; reflexivity|apply P; reflexivity]. }
    replace (("_"%char :: "$"%char :: (d :: ds) ++ w) ++ x) with ("_"%char :: "$"%char :: ((d :: ds) ++ w ++ x)) by (cbn; now rewrite <- app_assoc).
    unfold next_name. rewrite SC, skip_digits_app by exact F. rewrite skip_stop by exact SWX. reflexivity.
Qed.

Lemma word_count : forall z w, (0 <= z)%Z -> Forall letter w -> word (count z w).
Proof.
  intros z w Z0 L. split; [discriminate|]. split; [|exact I].
  constructor; [repeat split; discriminate|]. constructor; [repeat split; discriminate|].
  apply Forall_app. split; [|exact L]. destruct (show_digits_of z Z0) as [c [ds [-> [F _]]]].
  eapply Forall_impl; [|exact F]. intros a D. now apply digit_no.
Qed.

Lemma count_named : forall z w o, count z (w ++ tail_of o) = named (count z w) o.
Proof. intros. rewrite named_tail. unfold count. cbn [app]. now rewrite app_assoc. Qed.

Lemma collides_named : forall db n o, word n -> index_ok o -> vdb_collides db (named n o) = Ok (mem n db).
Proof. intros db n o W O. unfold vdb_collides. now rewrite base_named. Qed.

(* The loop ends on the first of the names that is free. *)
Lemma fresh_counts : forall o w old db, index_ok o -> Forall letter w -> stop (w ++ tail_of o) ->
  forall gas z, (0 <= z)%Z ->
  (exists m, (m < gas)%nat /\ ~ In (count (z + Z.of_nat m) w) db) ->
  exists z', (z <= z')%Z /\ fresh gas db old (named (count z w) o) = Ok (named (count z' w) o) /\ ~ In (count z' w) db.
Proof.
  intros o w old db O L S. induction gas as [|gas IH]; intros z Z0 [m [M N]]; [lia|].
  cbn [fresh]. rewrite collides_named by (auto; now apply word_count).
  destruct (mem (count z w) db) eqn:E.
  - rewrite <- count_named, next_count, count_named by assumption.
    destruct m as [|m]; [exfalso; apply N; rewrite Z.add_0_r; now apply mem_in|].
    destruct (IH (z + 1)%Z) as [z' [Z1 [F N']]]; [lia| |exists z'; split; [lia|auto]].
    exists m. split; [lia|]. now replace (z + 1 + Z.of_nat m)%Z with (z + Z.of_nat (Datatypes.S m))%Z by lia.
  - exists z. split; [lia|]. split; [reflexivity|]. rewrite <- mem_in. congruence.
Qed.

Lemma count_word_inj : forall z z' w o, (0 <= z)%Z -> (0 <= z')%Z -> stop (w ++ tail_of o) -> count z w = count z' w -> z = z'.
Proof.
  intros z z' w o A B S E. apply (count_inj z z' (w ++ tail_of o)); auto.
  rewrite !count_named. now rewrite E.
Qed.

Lemma free_count : forall db w o z, (0 <= z)%Z -> stop (w ++ tail_of o) ->
  exists m, (m < S (length db))%nat /\ ~ In (count (z + Z.of_nat m) w) db.
Proof.
  intros db w o z Z0 S. set (tries := map (fun m => count (z + Z.of_nat m) w) (seq 0 (Datatypes.S (length db)))).
  assert (D : (exists t, In t tries /\ ~ In t db) \/ incl tries db).
  { clearbody tries. induction tries as [|t ts IH]; [right; intros x []|].
    destruct (in_dec (list_eq_dec ascii_dec) t db) as [I|N]; [|left; exists t; split; [now left|exact N]].
    destruct IH as [[x [X1 X2]]|IH]; [left; exists x; split; [now right|exact X2]|].
    right. intros x [<-|X]; auto. }
  destruct D as [[t [T N]]|D].
  - apply in_map_iff in T as [m [<- M]]. apply in_seq in M. exists m. split; [lia|exact N].
  - exfalso. apply NoDup_incl_length in D; [subst tries; rewrite map_length, seq_length in D; lia|].
    subst tries. assert (N := seq_NoDup (Datatypes.S (length db)) 0).
    revert N. generalize (seq 0 (Datatypes.S (length db))). clear D. intros l N.
    induction N as [|m l NI N IH]; [constructor|]. cbn. constructor; [|exact IH].
    intros I. apply in_map_iff in I as [m' [E I]]. apply NI.
    apply (count_word_inj _ _ w o) in E; [|lia|lia|exact S]. now replace m with m' by lia.
Qed.

Lemma fresh_ok : forall db n o, word n -> index_ok o -> steady (named n o) ->
  exists n', word n' /\ fresh (S (S (length db))) db (named n o) (named n o) = Ok (named n' o) /\ ~ In n' db.
Proof.
  intros db n o W O SD. cbn [fresh]. rewrite collides_named by assumption.
  destruct (mem n db) eqn:E; [|exists n; repeat split; try apply W; rewrite <- mem_in; congruence].
  destruct (next_first n o W SD) as [z [w [Z1 [L [S ->]]]]]. rewrite count_named.
  destruct (fresh_counts o w (named n o) db O L S (Datatypes.S (length db)) z) as [z' [Z2 [F N]]]; [lia|apply (free_count db w o); [lia|exact S]|].
  exists (count z' w). split; [apply word_count; [lia|exact L]|]. split; [|exact N]. exact F.
Qed.

Lemma inserts_ok : forall l db, Forall wire l -> vdb_inserts db l = Ok (rev (map cut l) ++ db).
Proof.
  induction l as [|s l IH]; intros db W; [reflexivity|]. inversion W as [|? ? WS W']; subst.
  cbn [vdb_inserts]. unfold vdb_insert. rewrite base_wire by exact WS. rewrite IH by exact W'.
  cbn. now rewrite <- app_assoc.
Qed.

(* An internal wire and its new name. *)
Definition renamed (s s' : chars) : Prop :=
  exists n n' o, word n /\ word n' /\ index_ok o /\ s = named n o /\ s' = named n' o.

Lemma internals_ok : forall l db ints sub, Forall wire l -> Forall steady l ->
  exists news, internals l db ints sub = Ok (rev news ++ ints, rev (combine l (map (fun s => [s]) news)) ++ sub)
    /\ Forall2 renamed l news /\ NoDup (map cut news) /\ forall s, In s news -> ~ In (cut s) db.
Proof.
  induction l as [|s l IH]; intros db ints sub W SD.
  - exists []. repeat split; auto; constructor.
  - inversion W as [|? ? WS W']; subst. inversion SD as [|? ? SS SD']; subst.
    destruct WS as [n [o [WN [O ->]]]]. destruct (fresh_ok db n o WN O SS) as [n' [WN' [F N]]].
    cbn [internals]. rewrite F. unfold vdb_insert. rewrite base_named by assumption.
    destruct (IH (n' :: db) (named n' o :: ints) ((named n o, [named n' o]) :: sub) W' SD') as [news [E [R [ND D]]]].
    exists (named n' o :: news). split; [|split; [|split]].
    + rewrite E. cbn. now rewrite <- !app_assoc.
    + constructor; [|exact R]. exists n, n', o. repeat split; auto; try apply WN; apply WN'.
    + cbn. rewrite cut_named by exact WN'. constructor; [|exact ND].
      intros I. apply in_map_iff in I as [s [C I]]. apply (D s I). left. now symmetry.
    + intros s [<-|I]; [now rewrite cut_named|]. intros J. apply (D s I). now right.
Qed.

(* --- the substitution ------------------------------------------------------------------ *)

Lemma find_in : forall t k v, find t k = Some v -> In (k, v) t.
Proof.
  induction t as [|[k' v'] t IH]; intros k v H; [discriminate|]. cbn in H.
  destruct (chars_eqb k k') eqn:E; [|right; auto]. apply chars_eqb_eq in E. left. congruence.
Qed.

Lemma find_key : forall t k v, In (k, v) t -> exists v', find t k = Some v'.
Proof.
  induction t as [|[k' v'] t IH]; intros k v H; [destruct H|]. cbn.
  destruct (chars_eqb k k') eqn:E; [eauto|]. destruct H as [H|H]; [|eauto].
  injection H as -> ->. assert (chars_eqb k k = true) by now apply chars_eqb_eq. congruence.
Qed.

Section Subst.
Variable sg : chars -> chars.   (* the new name of a scalar *)

Definition sound (t : tbl) : Prop :=
  forall k v, In (k, v) t -> known v /\ expand v = map sg (expand k).

Definition binds (a : fa) : Prop :=
  known (fst a) /\ Forall known (snd a) /\ snd a <> [] /\ map sg (expand (fst a)) = flat_map expand (snd a).

Lemma walk_ok : forall av fv t, sound t -> (exists x, known x /\ incl av (expand x)) ->
  (forall s, In s fv -> expand s = [s]) -> map sg (firstn (length av) fv) = av ->
  exists t', walk fv av t = Ok (skipn (length av) fv, t') /\ sound t' /\ incl t t'
    /\ forall s, In s (firstn (length av) fv) -> exists v, In (s, v) t'.
Proof.
  induction av as [|a av IH]; intros fv t S [x [X I]] F M.
  - exists t. split; [destruct fv; reflexivity|]. split; [exact S|]. split; [apply incl_refl|intros s []].
  - destruct fv as [|f fv]; [discriminate|]. cbn in M. injection M as M1 M2. cbn [walk length firstn skipn].
    destruct (IH fv ((f, a) :: t)) as [t' [W [S' [I' C]]]].
    + intros k v [E|J]; [|now apply S]. injection E as <- <-.
      destruct (scalar_self x a X) as [KA EA]; [apply I; now left|]. split; [exact KA|].
      rewrite EA, (F f) by now left. cbn. now rewrite M1.
    + exists x. split; [exact X|]. intros y Y. apply I. now right.
    + intros s J. apply F. now right.
    + exact M2.
    + exists t'. split; [exact W|]. split; [exact S'|]. split; [intros y Y; apply I'; now right|].
      intros s [<-|J]; [exists a; apply I'; now left|now apply C].
Qed.

Lemma walks_ok : forall acts fv t, sound t -> Forall known acts ->
  (forall s, In s fv -> expand s = [s]) -> map sg fv = flat_map expand acts ->
  exists t', walks fv acts t = Ok ([], t') /\ sound t' /\ incl t t'
    /\ forall s, In s fv -> exists v, In (s, v) t'.
Proof.
  induction acts as [|a acts IH]; intros fv t S K F M.
  - destruct fv; [|discriminate]. exists t. split; [reflexivity|]. split; [exact S|]. split; [apply incl_refl|intros s []].
  - inversion K as [|? ? KA K']; subst. cbn in M.
    assert (M1 : map sg (firstn (length (expand a)) fv) = expand a).
    { rewrite <- firstn_map, M. rewrite firstn_app, firstn_all, Nat.sub_diag. cbn. now rewrite app_nil_r. }
    assert (M2 : map sg (skipn (length (expand a)) fv) = flat_map expand acts).
    { rewrite <- skipn_map, M. rewrite skipn_app, skipn_all, Nat.sub_diag. reflexivity. }
    destruct (walk_ok (expand a) fv t S) as [t1 [W1 [S1 [I1 C1]]]]; auto.
    { exists a. split; [exact KA|]. intros y; auto. }
    destruct (IH (skipn (length (expand a)) fv) t1 S1 K') as [t2 [W2 [S2 [I2 C2]]]]; auto.
    { intros s J. apply F. rewrite <- (firstn_skipn (length (expand a)) fv). apply in_or_app. now right. }
    exists t2. cbn [walks]. rewrite W1, W2. split; [reflexivity|]. split; [exact S2|].
    split; [intros y Y; auto|]. intros s J. rewrite <- (firstn_skipn (length (expand a)) fv) in J.
    apply in_app_iff in J as [J|J]; [|now apply C2]. destruct (C1 s J) as [v V]. exists v. auto.
Qed.

Lemma mk_subst_ok : forall l t, sound t -> Forall binds l ->
  exists t', mk_subst t l = Ok t' /\ sound t' /\ incl t t'
    /\ forall s, In s (flat_map expand (map fst l)) -> exists v, In (s, v) t'.
Proof.
  induction l as [|[f acts] l IH]; intros t S B.
  - exists t. split; [reflexivity|]. split; [exact S|]. split; [apply incl_refl|intros s []].
  - inversion B as [|? ? [KF [KA [NE M]]] B']; subst. cbn [fst snd] in *. cbn [mk_subst].
    destruct acts as [|a rest]; [congruence|].
    set (t1 := match rest with [] => (f, a) :: t | _ => t end).
    assert (S1 : sound t1 /\ incl t t1).
    { subst t1. destruct rest as [|b rest]; [|split; [exact S|intros y; auto]]. split; [|intros y Y; now right].
      intros k v [E|J]; [|now apply S]. injection E as <- <-. inversion KA; subst. split; [assumption|].
      rewrite M. cbn. now rewrite app_nil_r. }
    clearbody t1. destruct S1 as [S1 I1].
    destruct (walks_ok (a :: rest) (expand f) t1 S1 KA) as [t2 [W2 [S2 [I2 C2]]]]; [|exact M|].
    { intros s J. exact (proj2 (scalar_self f s KF J)). }
    rewrite W2. destruct (IH t2 S2 B') as [t3 [W3 [S3 [I3 C3]]]]. exists t3. split; [exact W3|]. split; [exact S3|].
    split; [intros y Y; auto|]. intros s J. cbn in J. apply in_app_iff in J as [J|J]; [|now apply C3].
    destruct (C2 s J) as [v V]. exists v. auto.
Qed.

Hypothesis sg_const : forall s, constant s -> sg s = s.

Lemma contig_self : forall s t, known s -> In t (expand_vector (split_name s)) -> contig t = [t].
Proof.
  intros s t K I. destruct K as [[n [o [W [O ->]]]]|[r [NE [B ->]]]].
  - rewrite split_named in I by assumption. destruct o as [[rs suf]|]; cbn [joined_index vec_of] in I.
    + match type of I with In _ (expand_vector (Txt ?a :: ?v)) =>
        change (expand_vector (Txt a :: v)) with (map (cons (Txt a)) (expand_vector v)) in I end.
      rewrite expand_idx in I. cbn [expand_vector map] in I. apply in_map_iff in I as [v [<- I]].
      apply in_flat_map in I as [i [_ I]]. cbn in I. destruct I as [<-|[]]. reflexivity.
    + cbn in I. destruct I as [<-|[]]. reflexivity.
  - rewrite split_const in I by exact B. cbn in I. destruct I as [<-|[]]. reflexivity.
Qed.

Lemma contig_selves : forall s, known s -> flat_map contig (expand_vector (split_name s)) = expand_vector (split_name s).
Proof.
  intros s K. assert (C := contig_self s). generalize dependent (expand_vector (split_name s)). intros l C.
  assert (C' := fun t => C t K). clear C. induction l as [|t l IH]; [reflexivity|]. cbn. rewrite (C' t) by now left.
  cbn. rewrite IH; [reflexivity|]. intros u U. apply C'. now right.
Qed.

Lemma const_scalars : forall r s, r <> [] -> Forall bit r -> In s (expand (const r)) -> constant s.
Proof.
  intros r s NE B I. rewrite expand_const in I by assumption. apply in_map_iff in I as [c [<- I]].
  exists [c]. split; [discriminate|]. split; [|reflexivity]. constructor; [|constructor].
  rewrite Forall_forall in B. auto.
Qed.

Lemma map_const : forall s, constant s -> map sg (expand s) = expand s.
Proof.
  intros s [r [NE [B ->]]]. rewrite <- (map_id (expand (const r))) at 2. apply map_ext_in. intros t T.
  apply sg_const. now apply (const_scalars r).
Qed.

(* A name that is a constant, or a wire whose scalars are all in the table. *)
Definition covered (t : tbl) (x : chars) : Prop :=
  constant x \/ wire x /\ forall s, In s (expand x) -> exists v, In (s, v) t.

Lemma subst_formal_ok : forall t x, sound t -> covered t x ->
  Forall known (subst_formal t x) /\ flat_map expand (subst_formal t x) = map sg (expand x).
Proof.
  intros t x S C. unfold subst_formal. destruct (find t x) as [a|] eqn:E.
  - apply find_in in E. destruct (S _ _ E) as [KA EA]. split; [constructor; [exact KA|constructor]|].
    cbn. now rewrite app_nil_r.
  - assert (KX : known x) by (destruct C as [C|[C _]]; [now right|now left]).
    rewrite contig_selves by exact KX. destruct C as [C|[WX C]].
    + rewrite map_const by exact C. destruct C as [r [NE [B ->]]]. rewrite split_const by exact B.
      cbn [expand_vector map show_vec]. rewrite text_back, app_nil_r, E. split; [constructor; [exact KX|constructor]|].
      cbn [flat_map]. now rewrite app_nil_r.
    + assert (EX : map show_vec (expand_vector (split_name x)) = expand x).
      { destruct WX as [n [o [W [O ->]]]]. unfold expand. now rewrite named_not_const. }
      rewrite EX. clear E EX. assert (SS : forall s, In s (expand x) -> expand s = [s]) by (intros s J; now apply (scalar_self x)).
      clear KX WX. induction (expand x) as [|s l IH]; [split; [constructor|reflexivity]|]. cbn [map].
      destruct (C s) as [v V]; [now left|]. destruct (find_key t s v V) as [v' V']. rewrite V'.
      apply find_in in V'. destruct (S _ _ V') as [KV EV]. destruct IH as [I1 I2]; [intros; apply C; now right|intros; apply SS; now right|].
      split; [constructor; assumption|]. cbn. rewrite EV, SS by now left. cbn. now rewrite I2.
Qed.

Lemma subst_formals_ok : forall t l, sound t -> Forall (covered t) l ->
  Forall known (flat_map (subst_formal t) l) /\ flat_map expand (flat_map (subst_formal t) l) = map sg (flat_map expand l).
Proof.
  intros t l S C. induction C as [|x l C _ [I1 I2]]; [split; [constructor|reflexivity]|].
  destruct (subst_formal_ok t x S C) as [A1 A2]. cbn. rewrite flat_map_app, map_app, A2, I2.
  split; [apply Forall_app; auto|reflexivity].
Qed.

(* The bindings of a grandchild before and after. *)
Definition moved (a b : fa) : Prop :=
  fst b = fst a /\ Forall known (snd a) /\ Forall known (snd b) /\ flat_map expand (snd b) = map sg (flat_map expand (snd a)).

Lemma covered_known : forall t x, covered t x -> known x.
Proof. intros t x [C|[C _]]; [now right|now left]. Qed.

Lemma subst_fas_ok : forall t l, sound t -> Forall (fun a => Forall (covered t) (snd a)) l ->
  exists l', subst_fas t l = Ok l' /\ Forall2 moved l l'.
Proof.
  intros t l S C. induction C as [|[f acts] l C _ [l' [E M]]]; [exists []; split; [reflexivity|constructor]|].
  cbn [snd] in C. destruct (subst_formals_ok t acts S C) as [K1 E1]. destruct (merge_names_ok _ K1) as [m [EM [KM XM]]].
  exists ((f, m) :: l'). cbn [subst_fas]. rewrite EM, E. split; [reflexivity|]. constructor; [|exact M].
  split; [reflexivity|]. cbn [snd]. split; [eapply Forall_impl; [|exact C]; intros; now apply (covered_known t)|].
  split; [exact KM|]. now rewrite XM.
Qed.
End Subst.

(* --- meaning ----------------------------------------------------------------------------- *)

Section Meaning.
Context {F V : Type}.
Variable K : ascii -> V.
Variable sat : F -> (chars -> V) -> Prop.

Definition child (e : chars -> V) (c : pex F) : Prop :=
  exists e', proper K e' /\ Forall (port e e') (h_inps (head_of c) ++ h_outs (head_of c)) /\ inside K sat c e'.

Lemma inside_hier : forall h l e, inside K sat (Hier h l) e <-> Forall (child e) l.
Proof.
  intros h l e. cbn. induction l as [|c l IH]; [split; constructor|]. rewrite Forall_cons_iff, IH. reflexivity.
Qed.

Lemma inside_set : forall c h e, inside K sat (set_head c h) e <-> inside K sat c e.
Proof. intros [h0 f|h0 l] h e; [reflexivity|]. cbn [set_head]. now rewrite !inside_hier. Qed.

Lemma head_set : forall (c : pex F) h, head_of (set_head c h) = h.
Proof. intros [h0 f|h0 l] h; reflexivity. Qed.

Lemma port_expand : forall (e e' : chars -> V) a, port e e' a <->
  known (fst a) /\ Forall known (snd a) /\ map e' (expand (fst a)) = map e (flat_map expand (snd a)).
Proof.
  intros e e' a. split.
  - intros [fs [ss [S1 [S2 E]]]]. rewrite (stands_expand _ _ S1), (stand_expand _ _ S2).
    split; [eapply stands_known; eauto|]. split; [eapply stand_known; eauto|exact E].
  - intros [K1 [K2 E]]. exists (expand (fst a)), (flat_map expand (snd a)).
    split; [now apply known_stands|]. split; [now apply known_stand|exact E].
Qed.

(* Only the values of the actuals matter. *)
Definition acts (c : pex F) : list chars := flat_map snd (h_inps (head_of c) ++ h_outs (head_of c)).

Lemma child_ext : forall e1 e2 c, (forall s, In s (flat_map expand (acts c)) -> e1 s = e2 s) -> child e1 c -> child e2 c.
Proof.
  intros e1 e2 c H [e' [P [PO I]]]. exists e'. split; [exact P|]. split; [|exact I]. rewrite Forall_forall in *.
  intros a A. apply PO in A as Q. rewrite port_expand in *. destruct Q as [K1 [K2 E]]. split; [exact K1|]. split; [exact K2|].
  rewrite E. apply map_ext_in. intros s S. apply H. unfold acts. apply in_flat_map in S as [x [X S]].
  apply in_flat_map. exists x. split; [|exact S]. apply in_flat_map. exists a. auto.
Qed.

Lemma child_moved : forall sg e g g', inside K sat g = inside K sat g' \/ (forall e', inside K sat g e' <-> inside K sat g' e') ->
  Forall2 (moved sg) (h_inps (head_of g) ++ h_outs (head_of g)) (h_inps (head_of g') ++ h_outs (head_of g')) ->
  (child (fun s => e (sg s)) g <-> child e g').
Proof.
  intros sg e g g' I M.
  assert (I' : forall e', inside K sat g e' <-> inside K sat g' e') by (destruct I as [->|I]; [tauto|exact I]).
  assert (P : forall e', Forall (port (fun s => e (sg s)) e') (h_inps (head_of g) ++ h_outs (head_of g))
     <-> Forall (port e e') (h_inps (head_of g') ++ h_outs (head_of g'))).
  { intros e'. induction M as [|a b l l' [M1 [M2 [M3 M4]]] _ IH]; [split; constructor|]. rewrite !Forall_cons_iff, IH.
    rewrite !port_expand, M1, M4, map_map. tauto. }
  split; intros [e' [Q1 [Q2 Q3]]]; exists e'; (split; [exact Q1|]; split; [now apply P|now apply I']).
Qed.
End Meaning.

(* --- renamings -------------------------------------------------------------------------- *)

Definition table_of (ks vs : list chars) (s : chars) : chars :=
  match find (combine ks vs) s with Some v => v | None => s end.

Lemma table_out : forall ks vs s, ~ In s ks -> table_of ks vs s = s.
Proof.
  intros ks vs s N. unfold table_of. destruct (find (combine ks vs) s) as [v|] eqn:E; [|reflexivity].
  apply find_in, in_combine_l in E. contradiction.
Qed.

Lemma table_ok : forall ks vs, NoDup ks -> length ks = length vs -> map (table_of ks vs) ks = vs.
Proof.
  induction ks as [|k ks IH]; intros [|v vs] N L; try discriminate; [reflexivity|].
  inversion N as [|? ? NI N']; subst. cbn [map]. f_equal.
  - unfold table_of. cbn. assert (E : chars_eqb k k = true) by now apply chars_eqb_eq. now rewrite E.
  - rewrite <- (IH vs) at 2; [|exact N'|now injection L]. apply map_ext_in. intros s S. unfold table_of. cbn.
    destruct (chars_eqb s k) eqn:E; [|reflexivity]. apply chars_eqb_eq in E. subst. contradiction.
Qed.

Definition even (a : fa) : Prop := length (expand (fst a)) = length (flat_map expand (snd a)).

Lemma even_flat : forall l, Forall even l ->
  length (flat_map expand (map fst l)) = length (flat_map (fun a => flat_map expand (snd a)) l).
Proof. induction 1 as [|a l E _ IH]; [reflexivity|]. cbn. rewrite !app_length, E, IH. reflexivity. Qed.

Lemma app_split : forall {A} (a b c d : list A), length a = length c -> a ++ b = c ++ d -> a = c /\ b = d.
Proof.
  induction a as [|x a IH]; intros b [|y c] d L E; try discriminate; [auto|]. cbn in *. injection E as -> E.
  destruct (IH b c d) as [-> ->]; auto.
Qed.

Lemma even_binds : forall sg l, Forall even l ->
  map sg (flat_map expand (map fst l)) = flat_map (fun a => flat_map expand (snd a)) l ->
  Forall (fun a => map sg (expand (fst a)) = flat_map expand (snd a)) l.
Proof.
  induction 1 as [|a l E _ IH]; intros M; [constructor|]. cbn in M. rewrite map_app in M.
  apply app_split in M as [M1 M2]; [|now rewrite map_length]. constructor; auto.
Qed.

Lemma show_int_inj : forall i j, show_int i = show_int j -> i = j.
Proof.
  intros i j E. assert (A := num_read _ _ (show_int_ok i) [] I). assert (B := num_read _ _ (show_int_ok j) [] I).
  rewrite app_nil_r in *. congruence.
Qed.

Lemma show_end : forall i j x y, show_int i ++ "]"%char :: x = show_int j ++ "]"%char :: y -> i = j.
Proof.
  intros i j x y E. assert (A := num_read _ _ (show_int_ok i) ("]"%char :: x) eq_refl).
  assert (B := num_read _ _ (show_int_ok j) ("]"%char :: y) eq_refl). rewrite E in A. congruence.
Qed.

Lemma renamed_ok : forall s s', renamed s s' -> wire s /\ wire s' /\ length (expand s) = length (expand s')
  /\ (NoDup (expand s) -> NoDup (expand s')).
Proof.
  intros s s' [n [n' [o [W [W' [O [-> ->]]]]]]]. split; [now exists n, o|]. split; [now exists n', o|].
  rewrite !expand_named by assumption. destruct o as [[rs suf]|]; cbn [scalars_of].
  - rewrite !map_length. split; [reflexivity|]. intros N. apply NoDup_map_inv in N.
    apply Injective_map_NoDup; [|exact N]. intros i j E. apply app_inv_head in E. injection E as E.
    now apply show_end in E.
  - split; [reflexivity|]. intros _. constructor; [intros []|constructor].
Qed.

Lemma nodup_app : forall {A} (a b : list A), NoDup a -> NoDup b -> (forall x, In x a -> ~ In x b) -> NoDup (a ++ b).
Proof.
  induction a as [|x a IH]; intros b NA NB D; [exact NB|]. inversion NA as [|? ? NI NA']; subst. cbn. constructor.
  - rewrite in_app_iff. intros [I|I]; [contradiction|]. apply (D x); [now left|exact I].
  - apply IH; auto. intros y Y. apply D. now right.
Qed.

Lemma nodup_split : forall {A} (a b : list A), NoDup (a ++ b) -> NoDup a /\ NoDup b /\ forall x, In x a -> ~ In x b.
Proof.
  induction a as [|x a IH]; intros b N; [repeat split; auto; constructor|]. cbn in N.
  inversion N as [|? ? NI N']; subst. destruct (IH b N') as [N1 [N2 D]]. rewrite in_app_iff in NI.
  split; [constructor; tauto|]. split; [exact N2|]. intros y [<-|Y]; [tauto|auto].
Qed.

Lemma news_nodup : forall l news, Forall2 renamed l news -> NoDup (flat_map expand l) -> NoDup (map cut news) ->
  NoDup (flat_map expand news).
Proof.
  induction 1 as [|s s' l news R RS IH]; intros N C; [constructor|]. cbn in *.
  apply nodup_split in N as [N1 [N2 _]]. inversion C as [|? ? NC C']; subst.
  destruct (renamed_ok s s' R) as [_ [W' [_ ND]]]. apply nodup_app; auto.
  intros x X I. apply in_flat_map in I as [y [Y I]]. apply NC.
  assert (WY : wire y). { clear - RS Y. induction RS as [|a b l l' R _ IH]; [destruct Y|]. destruct Y as [<-|Y]; auto. now apply (renamed_ok a). }
  rewrite <- (wire_cut s' x W' X), (wire_cut y x WY I). now apply in_map.
Qed.

Lemma renamed_wires : forall l news, Forall2 renamed l news -> Forall wire l /\ Forall wire news
  /\ length (flat_map expand l) = length (flat_map expand news).
Proof.
  induction 1 as [|s s' l news R _ [W1 [W2 L]]]; [repeat split; constructor|]. destruct (renamed_ok s s' R) as [A [B [C _]]].
  split; [now constructor|]. split; [now constructor|]. cbn. rewrite !app_length. congruence.
Qed.

Lemma neat_tidy : forall n o, word n -> index_ok o ->
  match o with None => True | Some (rs, _) => falling rs \/ exists p, rs = [p] /\ p <> (-1, 0)%Z end ->
  tidy (split_name (named n o)).
Proof.
  intros n o W O T. rewrite split_named by assumption. destruct o as [[rs suf]|]; [|repeat constructor].
  cbn [joined_index vec_of]. constructor; [exact I|]. constructor; [|repeat constructor].
  destruct T as [T|[p [-> NP]]].
  - assert (J : falling (joined rs)).
    { destruct rs as [|r rs]; [exact I|]. cbn [joined]. clear - T. revert r T. induction rs as [|[cu cl] rs IH]; intros [tu tl] T; [exact T|].
      cbn [falling fst snd] in T. destruct T as [T1 [T2 [T3 [T4 T5]]]]. cbn [merge_from].
      destruct ((tu >=? tl)%Z && (cu >=? cl)%Z && (tl - 1 =? cu)%Z) eqn:E.
      { apply IH. cbn [falling fst snd]. split; [lia|]. split; [|exact T5]. destruct rs; [exact I|]. lia. }
      destruct ((tu <=? tl)%Z && (cu <=? cl)%Z && (tl + 1 =? cu)%Z) eqn:E2.
      { exfalso. rewrite !andb_true_iff, !Z.leb_le, Z.eqb_eq in E2. lia. }
      assert (H := IH (cu, cl)). cbn [falling fst snd] in H.
      assert (Q : falling (merge_from (cu, cl) rs)) by (apply H; auto).
      assert (FST : forall rs u l, exists l' r, merge_from (u, l) rs = (u, l') :: r).
      { clear. induction rs as [|[a b] rs IH]; intros u l; [do 2 eexists; reflexivity|]. cbn.
        repeat match goal with |- context [if ?x then _ else _] => destruct x end; auto. do 2 eexists. reflexivity. }
      destruct (FST rs cu cl) as [l' [r E3]]. rewrite E3 in *. cbn [falling fst snd]. repeat split; auto; try lia; apply Q. }
    split; [|now left]. clear - J. induction (joined rs) as [|p r IH]; [constructor|]. cbn in J. destruct J as [J1 [_ J2]].
    constructor; [|now apply IH]. intros ->. cbn in J1. lia.
  - cbn. split; [constructor; [exact NP|constructor]|]. right. now exists p.
Qed.

Lemma tidy_renamed : forall n n' o, word n -> word n' -> index_ok o ->
  tidy (split_name (named n o)) -> tidy (split_name (named n' o)).
Proof.
  intros n n' o W W' O T. rewrite split_named in * by assumption. destruct o as [[rs suf]|]; [|repeat constructor].
  cbn [joined_index vec_of] in *. inversion T as [|? ? _ T1]; subst. inversion T1 as [|? ? T2 _]; subst.
  constructor; [exact I|]. constructor; [exact T2|]. repeat constructor.
Qed.

(* --- unfolding ---------------------------------------------------------------------------- *)

Section Unfold.
Context {F : Type}.

Lemma grandchildren_ok : forall sg t attrs (l : list (pex F)), (forall s, constant s -> sg s = s) -> sound sg t ->
  (forall g, In g l -> Forall (covered t) (acts g)) ->
  exists l', grandchildren t attrs l = Ok l' /\
    Forall2 (fun g g' => exists h', g' = set_head g h' /\ rewired attrs (head_of g) h' /\
       Forall2 (moved sg) (h_inps (head_of g) ++ h_outs (head_of g)) (h_inps h' ++ h_outs h')) l l'.
Proof.
  intros sg t attrs l SC S. induction l as [|g l IH]; intros C; [exists []; split; [reflexivity|constructor]|].
  destruct IH as [l' [E R]]; [intros x X; apply C; now right|].
  assert (CG : Forall (fun a => Forall (covered t) (snd a)) (h_inps (head_of g) ++ h_outs (head_of g))).
  { assert (Q := C g (or_introl eq_refl)). unfold acts in Q. rewrite Forall_forall in *. intros a A. apply Forall_forall.
    intros x X. apply Q. apply in_flat_map. exists a. auto. }
  apply Forall_app in CG as [C1 C2].
  destruct (subst_fas_ok sg SC t _ S C1) as [i [E1 M1]]. destruct (subst_fas_ok sg SC t _ S C2) as [o [E2 M2]].
  cbn [grandchildren]. rewrite E1, E2, E. eexists. split; [reflexivity|]. constructor; [|exact R].
  eexists. split; [reflexivity|]. split; [|cbn [h_inps h_outs]; now apply Forall2_app].
  assert (FST : forall a b, Forall2 (moved sg) a b -> map fst b = map fst a).
  { clear. intros a b. induction 1 as [|x y a b [M _] _ IH]; [reflexivity|]. cbn. congruence. }
  repeat split; cbn; auto.
Qed.

Lemma scoped_acts : forall h (l : list (pex F)) c x, scoped h l -> In c l -> In x (acts c) ->
  (wire x /\ forall s, In s (expand x) -> In s (flat_map expand (wires h))) \/ constant x.
Proof.
  intros h l c x [W S] C X. unfold acts in X. apply in_flat_map in X as [a [A X]].
  destruct (S c a x C A X) as [[WX Q]|Q]; [left|now right]. split; [exact WX|]. intros s I.
  apply in_names_expand; [eapply Forall_impl; [|exact W]; intros; now left|]. apply (Q (expand x)); [now apply wire_stands|exact I].
Qed.

Lemma scoped_known : forall h (l : list (pex F)) c x, scoped h l -> In c l -> In x (acts c) -> known x.
Proof. intros h l c x S C X. destruct (scoped_acts h l c x S C X) as [[W _]|Q]; [now left|now right]. Qed.

Theorem unfold_ok : forall srt h (l : list (pex F)) k hu lu, (forall x, Permutation (srt x) x) ->
  scoped h l -> nth_error l k = Some (Hier hu lu) -> scoped hu lu -> distinct (wires hu) -> fits hu ->
  Forall neat (h_ints h ++ h_ints hu) -> Forall steady (h_ints hu) ->
  exists ints l' gs, unfold srt (Hier h l) (S k) = Ok (Hier (set_ints h ints) l')
    /\ (l' = firstn k l ++ skipn (S k) l ++ gs /\ Forall2 (lifted (h_attrs hu)) lu gs)
    /\ scoped (set_ints h ints) l'
    /\ (forall s, in_names (h_ints h) s -> in_names ints s)
    /\ forall V (K : ascii -> V) sat e,
         possible K sat (Hier h l) (wires h) e <-> possible K sat (Hier (set_ints h ints) l') (wires h) e.
Proof.
  intros srt h l k hu lu PS SH NTH SU DU FU NT ST.
  assert (WH := proj1 SH). assert (WU := proj1 SU).
  assert (KU : Forall known (wires hu)) by (eapply Forall_impl; [|exact WU]; intros; now left).
  assert (KH : Forall known (wires h)) by (eapply Forall_impl; [|exact WH]; intros; now left).
  (* the database *)
  assert (DB : exists db, (do db <- vdb_inserts [] (map fst (h_inps h)); do db <- vdb_inserts db (map fst (h_outs h)); vdb_inserts db (h_ints h)) = Ok db
             /\ forall s, In s (wires h) -> In (cut s) db).
  { unfold wires, formals in *. rewrite map_app in WH. apply Forall_app in WH as [W1 W3]. apply Forall_app in W1 as [W1 W2].
    rewrite inserts_ok by exact W1. rewrite inserts_ok by exact W2. rewrite inserts_ok by exact W3.
    eexists. split; [reflexivity|]. intros s I. rewrite map_app, !in_app_iff in I. rewrite !in_app_iff, <- !in_rev.
    destruct I as [[I|I]|I]; apply (in_map cut) in I; auto. }
  destruct DB as [db [EDB DB]].
  (* the internals *)
  assert (WI : Forall wire (h_ints hu)) by (apply Forall_app in WU; apply WU).
  destruct (internals_ok (h_ints hu) db (h_ints h) [] WI ST) as [news [EI [RN [NC ND]]]]. rewrite app_nil_r in EI.
  destruct (renamed_wires _ _ RN) as [_ [WN LN]].
  (* the renaming *)
  set (B := (h_inps hu ++ h_outs hu) ++ combine (h_ints hu) (map (fun s => [s]) news)).
  assert (LEN : length (h_ints hu) = length news) by (clear - RN; induction RN; cbn; congruence).
  assert (FB : map fst B = wires hu).
  { subst B. unfold wires, formals. rewrite map_app. f_equal. clear - LEN. revert news LEN.
    induction (h_ints hu) as [|s l IH]; intros [|s' news] L; try discriminate; [reflexivity|]. cbn. f_equal. apply IH. now injection L. }
  assert (EV : Forall even B).
  { apply Forall_app. split.
    - apply Forall_forall. intros a A. destruct (FU a A) as [_ [fs [ss [S1 [S2 L]]]]]. unfold even.
      now rewrite (stands_expand _ _ S1), (stand_expand _ _ S2).
    - clear - RN. induction RN as [|s s' l news R _ IH]; [constructor|]. cbn. constructor; [|exact IH].
      unfold even. cbn. rewrite app_nil_r. now apply renamed_ok. }
  assert (NU : NoDup (flat_map expand (wires hu))).
  { destruct DU as [ss [S N]]. now rewrite (stand_expand _ _ S). }
  set (sg := table_of (flat_map expand (wires hu)) (flat_map (fun a => flat_map expand (snd a)) B)).
  assert (SG : Forall (fun a => map sg (expand (fst a)) = flat_map expand (snd a)) B).
  { apply even_binds; [exact EV|]. rewrite FB. apply table_ok; [exact NU|]. rewrite <- FB. now apply even_flat. }
  assert (SC : forall s, constant s -> sg s = s).
  { intros s C. apply table_out. intros I. apply in_flat_map in I as [x [X I]]. rewrite Forall_forall in WU.
    apply (wire_not_const s); [|exact C]. now apply (scalar_wire x); [apply WU|]. }
  clearbody sg.
  (* the child *)
  destruct (nth_error_split l k NTH) as [l1 [l2 [EL LK]]].
  assert (IU : In (Hier hu lu) l) by now apply nth_error_In in NTH.
  assert (BI : Forall (binds sg) B).
  { rewrite Forall_forall in *. intros a A. assert (Q := SG a A). apply in_app_iff in A as [A|A].
    - destruct (FU a A) as [NE _]. split; [apply KU; rewrite <- FB; apply in_map; apply in_app_iff; now left|].
      split; [|split; [exact NE|exact Q]]. apply Forall_forall. intros x X.
      apply (scoped_known h l (Hier hu lu) x SH IU). apply in_flat_map. exists a. auto.
    - split; [apply KU; rewrite <- FB; apply in_map; apply in_app_iff; now right|].
      destruct a as [s s']. apply in_combine_r in A as A'. apply in_map_iff in A' as [x [<- X]].
      split; [constructor; [left; now apply WN|constructor]|]. split; [discriminate|exact Q]. }
  apply Forall_app in BI as BI0. destruct BI0 as [BIO BIN]. apply Forall_app in BIO as [BII BIO].
  destruct (mk_subst_ok sg (h_inps hu) [] ltac:(intros ? ? []) BII) as [t1 [E1 [S1 [I1 C1]]]].
  destruct (mk_subst_ok sg (h_outs hu) t1 S1 BIO) as [t2 [E2 [S2 [I2 C2]]]].
  destruct (mk_subst_ok sg (rev (combine (h_ints hu) (map (fun s => [s]) news))) t2 S2) as [t3 [E3 [S3 [I3 C3]]]].
  { rewrite Forall_forall in *. intros a A. apply BIN. now apply in_rev. }
  assert (CV : forall s, In s (flat_map expand (wires hu)) -> exists v, In (s, v) t3).
  { intros s I. rewrite <- FB in I. subst B. rewrite !map_app, !flat_map_app, !in_app_iff in I. destruct I as [[I|I]|I].
    - destruct (C1 s I) as [v V]. exists v. auto.
    - destruct (C2 s I) as [v V]. exists v. auto.
    - apply C3. rewrite map_rev. apply in_flat_map in I as [x [X I]]. apply in_flat_map. exists x. split; [now apply in_rev in X|exact I]. }
  destruct (grandchildren_ok sg t3 (h_attrs hu) lu SC S3) as [gs [EG MG]].
  { intros g G. apply Forall_forall. intros x X. destruct (scoped_acts hu lu g x SU G X) as [[W Q]|Q]; [right|now left].
    split; [exact W|]. intros s I. now apply CV, Q. }
  destruct (extract_names_ok srt (rev news ++ h_ints h) PS) as [ints [EE [WE QE]]].
  { apply Forall_app. split; [now apply Forall_rev|]. apply Forall_app in WH; apply WH. }
  { apply Forall_app in NT as [NT1 NT2]. apply Forall_app. split.
    - apply Forall_rev. clear - RN NT2. induction RN as [|s s' l news R _ IH]; [constructor|].
      inversion NT2 as [|? ? N NT]; subst. constructor; [|now apply IH].
      destruct R as [n [n' [o [W [W' [O [-> ->]]]]]]]. apply (tidy_renamed n); auto.
      destruct N as [m [o2 [Wm [O2 [-> T]]]]]. now apply neat_tidy.
    - eapply Forall_impl; [|exact NT1]. intros s [n [o [W [O [-> T]]]]]. now apply neat_tidy. }
  (* the result *)
  exists ints, ((firstn k l ++ skipn (S k) l) ++ gs), gs.
  assert (FK : firstn k l = l1).
  { rewrite EL, <- LK, firstn_app, firstn_all, Nat.sub_diag. cbn. apply app_nil_r. }
  assert (SK : skipn (S k) l = l2).
  { rewrite EL, <- LK. rewrite skipn_app, (skipn_all2 l1) by lia. replace (S (length l1) - length l1)%nat with 1%nat by lia. reflexivity. }
  split.
  { cbn [unfold]. destruct (vdb_inserts [] (map fst (h_inps h))) as [d1| |]; [|discriminate|discriminate].
    destruct (vdb_inserts d1 (map fst (h_outs h))) as [d2| |]; [|discriminate|discriminate].
    rewrite EDB, NTH, E1, E2, EI, E3, EG, EE. reflexivity. }
  rewrite FK, SK. split.
  { split; [now rewrite app_assoc|]. clear - MG. induction MG as [|g g' l l' R _ IH]; [constructor|]. constructor; [|exact IH].
    destruct R as [h' [-> [R _]]]. destruct g; now constructor. }
  assert (ME : forall s, In s (flat_map expand ints) <-> In s (flat_map expand news) \/ In s (flat_map expand (h_ints h))).
  { intros s. rewrite QE, flat_map_app, in_app_iff. enough (In s (flat_map expand (rev news)) <-> In s (flat_map expand news)) by tauto.
    rewrite !in_flat_map. split; intros [x [X I]]; exists x; (split; [now apply in_rev in X || (rewrite <- in_rev; exact X)|exact I]). }
  assert (MW : forall s, In s (flat_map expand (wires (set_ints h ints))) <-> In s (flat_map expand (wires h)) \/ In s (flat_map expand news)).
  { intros s. unfold wires, formals, set_ints. cbn [h_inps h_outs h_ints]. rewrite !flat_map_app, !in_app_iff, ME. tauto. }
  assert (WH' : Forall wire (wires (set_ints h ints))).
  { unfold wires, formals, set_ints. cbn [h_inps h_outs h_ints]. apply Forall_app. split; [|exact WE]. apply Forall_app in WH. apply WH. }
  assert (KH' : Forall known (wires (set_ints h ints))) by (eapply Forall_impl; [|exact WH']; intros; now left).
  (* where the renaming goes *)
  assert (SGI : map sg (flat_map expand (h_ints hu)) = flat_map expand news).
  { subst B. apply Forall_app in SG as [_ SG]. clear - SG RN. induction RN as [|s s' l news R _ IH]; [reflexivity|].
    cbn in SG. inversion SG as [|? ? Q SG']; subst. cbn in *. rewrite app_nil_r in Q. rewrite map_app, Q, IH by exact SG'. reflexivity. }
  assert (SGF : forall s, In s (flat_map expand (formals hu)) ->
            In (sg s) (flat_map expand (acts (Hier hu lu)))).
  { intros s I. apply in_flat_map in I as [f [FF I]]. unfold formals in FF. apply in_map_iff in FF as [a [<- A]].
    assert (Q : map sg (expand (fst a)) = flat_map expand (snd a)).
    { rewrite Forall_forall in SG. apply SG. apply in_app_iff. now left. }
    apply (in_map sg) in I. rewrite Q in I. apply in_flat_map in I as [x [X I]]. apply in_flat_map. exists x.
    split; [|exact I]. unfold acts. apply in_flat_map. exists a. auto. }
  assert (INO : forall c, In c (l1 ++ l2) -> In c l).
  { intros c C. rewrite EL. rewrite in_app_iff in *. cbn. tauto. }
  assert (ACT : forall c s, In c l -> In s (flat_map expand (acts c)) -> In s (flat_map expand (wires h)) \/ constant s).
  { intros c s C I. apply in_flat_map in I as [x [X I]]. destruct (scoped_acts h l c x SH C X) as [[_ Q]|[r [NE [B1 ->]]]]; [left; now apply Q|right].
    now apply (const_scalars r). }
  assert (ACTU : forall c s, In c lu -> In s (flat_map expand (acts c)) ->
             In s (flat_map expand (wires hu)) \/ exists c, bit c /\ s = const [c]).
  { intros c s C I. apply in_flat_map in I as [x [X I]]. destruct (scoped_acts hu lu c x SU C X) as [[_ Q]|[r [NE [B1 ->]]]]; [left; now apply Q|right].
    rewrite expand_const in I by assumption. apply in_map_iff in I as [b [<- I]]. exists b. rewrite Forall_forall in B1. auto. }
  assert (ONE : forall c, bit c -> constant (const [c])).
  { intros c B1. exists [c]. split; [discriminate|]. split; [|reflexivity]. constructor; [exact B1|constructor]. }
  assert (NEWO : forall s, In s (flat_map expand news) -> ~ In s (flat_map expand (wires h)) /\ ~ constant s).
  { intros s I. apply in_flat_map in I as [x [X I]]. assert (WX : wire x) by (rewrite Forall_forall in WN; auto). split.
    - intros J. apply in_flat_map in J as [y [Y J]]. assert (WY : wire y) by (rewrite Forall_forall in WH; auto).
      apply (ND x X). rewrite <- (wire_cut x s WX I), (wire_cut y s WY J). now apply DB.
    - apply wire_not_const. now apply (scalar_wire x). }
  split.
  { (* scopes *)
    split; [exact WH'|]. intros c a x C A X. apply in_app_iff in C as [C|C].
    - destruct SH as [_ SH]. destruct (SH c a x (INO c C) A X) as [[WX Q]|Q]; [left|now right]. split; [exact WX|].
      intros ss s SS I. apply in_names_expand; [exact KH'|]. apply MW. left. apply in_names_expand; [exact KH|]. now apply (Q ss).
    - assert (G : exists g h', In g lu /\ c = set_head g h' /\ Forall2 (moved sg) (h_inps (head_of g) ++ h_outs (head_of g)) (h_inps h' ++ h_outs h')).
      { clear - MG C. induction MG as [|g g' l l' R _ IH]; [destruct C|]. destruct C as [<-|C].
        - destruct R as [h' [R1 [_ R2]]]. exists g, h'. split; [now left|]. auto.
        - destruct (IH C) as [g0 [h' [R1 R2]]]. exists g0, h'. split; [now right|exact R2]. }
      destruct G as [g [h' [G [-> M]]]]. rewrite head_set in A.
      assert (M' : exists a0, In a0 (h_inps (head_of g) ++ h_outs (head_of g)) /\ moved sg a0 a).
      { clear - M A. induction M as [|a0 b0 l l' R _ IH]; [destruct A|]. destruct A as [<-|A]; [exists a0; split; [now left|exact R]|].
        destruct (IH A) as [a1 [R1 R2]]. exists a1. split; [now right|exact R2]. }
      destruct M' as [a0 [A0 [_ [_ [KA MA]]]]]. rewrite Forall_forall in KA. destruct (KA x X) as [WX|CX]; [left|now right].
      split; [exact WX|]. intros ss s SS I. rewrite <- (stands_expand _ _ SS) in I. apply in_names_expand; [exact KH'|]. apply MW.
      assert (NCS : ~ constant s) by (apply wire_not_const; now apply (scalar_wire x)).
      assert (J : In s (map sg (flat_map expand (snd a0)))) by (rewrite <- MA; apply in_flat_map; exists x; auto).
      apply in_map_iff in J as [s0 [<- J]].
      assert (J' : In s0 (flat_map expand (acts g))).
      { apply in_flat_map in J as [y [Y J]]. apply in_flat_map. exists y. split; [|exact J]. unfold acts. apply in_flat_map. exists a0. auto. }
      destruct (ACTU g s0 G J') as [Q|[b [B1 ->]]]; [|exfalso; apply NCS; rewrite (SC _ (ONE b B1)); now apply ONE].
      unfold wires in Q. rewrite flat_map_app, in_app_iff in Q. destruct Q as [Q|Q].
      + destruct (ACT _ _ IU (SGF s0 Q)) as [R|R]; [now left|contradiction].
      + right. rewrite <- SGI. now apply in_map. }
  split.
  { intros s I. apply Forall_app in WH as WI2. destruct WI2 as [_ WI2]. apply in_names_expand; [eapply Forall_impl; [|exact WE]; intros; now left|].
    apply ME. right. apply in_names_expand in I; [exact I|]. eapply Forall_impl; [|exact WI2]. intros; now left. }
  (* meaning *)
  intros V K sat e.
  assert (GS : forall e1, Forall (child K sat e1) gs <-> Forall (child K sat (fun s => e1 (sg s))) lu).
  { intros e1. clear - MG. induction MG as [|g g' l l' R _ IH]; [split; constructor|]. rewrite !Forall_cons_iff, IH.
    destruct R as [h' [-> [_ R]]]. rewrite (child_moved K sat sg e1 g (set_head g h')); [reflexivity| |].
    - right. intros e'. symmetry. apply inside_set.
    - now rewrite head_set. }
  assert (IN1 : forall e1, inside K sat (Hier h l) e1 <-> Forall (child K sat e1) (l1 ++ l2) /\ child K sat e1 (Hier hu lu)).
  { intros e1. rewrite inside_hier, EL, !Forall_app, Forall_cons_iff. tauto. }
  assert (IN2 : forall e1, inside K sat (Hier (set_ints h ints) ((l1 ++ l2) ++ gs)) e1 <->
     Forall (child K sat e1) (l1 ++ l2) /\ Forall (child K sat (fun s => e1 (sg s))) lu).
  { intros e1. rewrite inside_hier, Forall_app, GS. tauto. }
  split.
  - intros [e1 [P1 [A1 I1']]]. apply IN1 in I1' as [IO [e2 [P2 [PO IC]]]]. rewrite inside_hier in IC. cbn [head_of] in PO.
    set (back := table_of (flat_map expand news) (flat_map expand (h_ints hu))).
    assert (NN : NoDup (flat_map expand news)).
    { apply (news_nodup (h_ints hu)); auto. unfold wires in NU. rewrite flat_map_app in NU. now apply nodup_split in NU. }
    assert (BK : map back (flat_map expand news) = flat_map expand (h_ints hu)) by now apply table_ok.
    clearbody back.
    set (e3 := fun s => if mem s (flat_map expand news) then e2 (back s) else e1 s).
    assert (OLD : forall s, In s (flat_map expand (wires h)) \/ constant s -> e3 s = e1 s).
    { intros s Q. unfold e3. destruct (mem s (flat_map expand news)) eqn:M; [|reflexivity]. apply mem_in in M.
      destruct (NEWO s M). tauto. }
    assert (NEW : forall s, In s (flat_map expand (h_ints hu)) -> e3 (sg s) = e2 s).
    { intros s I. unfold e3. assert (M : In (sg s) (flat_map expand news)) by (rewrite <- SGI; now apply in_map).
      apply mem_in in M as M'. rewrite M'. f_equal. rewrite <- SGI, map_map in BK. clear - BK I.
      induction (flat_map expand (h_ints hu)) as [|x l IH]; [destruct I|]. cbn in BK. injection BK as B1 B2.
      destruct I as [<-|I]; auto. }
    exists e3. split; [|split].
    + intros c B1. rewrite OLD; [now apply P1|]. right. now apply ONE.
    + intros s Q. rewrite <- A1 by exact Q. apply OLD. left. now apply in_names_expand.
    + apply IN2. split.
      * rewrite Forall_forall in *. intros c C. apply (child_ext K sat e1); [|now apply IO].
        intros s I. symmetry. apply OLD. apply (ACT c); auto.
      * rewrite Forall_forall in *. intros g G. apply (child_ext K sat e2); [|now apply IC].
        intros s I. symmetry. destruct (ACTU g s G I) as [Q|[b [B1 ->]]].
        -- unfold wires in Q. rewrite flat_map_app, in_app_iff in Q. destruct Q as [Q|Q]; [|now apply NEW].
           rewrite OLD by now apply (ACT (Hier hu lu)), SGF.
           unfold formals in Q. apply in_flat_map in Q as [f [FF Q]]. apply in_map_iff in FF as [a [<- A]].
           apply PO in A as PA. apply port_expand in PA as [_ [_ PA]].
           rewrite <- (SG a) in PA by (apply in_app_iff; now left). rewrite map_map in PA. clear - PA Q.
           induction (expand (fst a)) as [|x l IH]; [destruct Q|]. cbn in PA. injection PA as B1 B2. destruct Q as [<-|Q]; auto.
        -- rewrite SC by now apply ONE. rewrite OLD by (right; now apply ONE). rewrite P1, P2 by exact B1. reflexivity.
  - intros [e1 [P1 [A1 I1']]]. apply IN2 in I1' as [IO IC]. exists e1. split; [exact P1|]. split; [exact A1|].
    apply IN1. split; [exact IO|]. exists (fun s => e1 (sg s)). split; [|split].
    + intros c B1. rewrite SC by now apply ONE. now apply P1.
    + apply Forall_forall. intros a A. apply port_expand. cbn [head_of] in A. rewrite Forall_forall in BI, SG.
      destruct (BI a) as [Q1 [Q2 _]]; [apply in_app_iff; now left|]. split; [exact Q1|]. split; [exact Q2|].
      rewrite <- (SG a) by (apply in_app_iff; now left). now rewrite map_map.
    + now rewrite inside_hier.
Qed.

Lemma insert_all : forall h, Forall wire (wires h) -> exists d1 d2 d3, vdb_inserts [] (map fst (h_inps h)) = Ok d1
  /\ vdb_inserts d1 (map fst (h_outs h)) = Ok d2 /\ vdb_inserts d2 (h_ints h) = Ok d3.
Proof.
  intros h W. unfold wires, formals in W. rewrite map_app in W. apply Forall_app in W as [W1 W3]. apply Forall_app in W1 as [W1 W2].
  do 3 eexists. split; [now apply inserts_ok|]. split; now apply inserts_ok.
Qed.

Theorem unfold_leaf : forall srt h (l : list (pex F)) k hu f, Forall wire (wires h) ->
  nth_error l k = Some (Leaf hu f) -> unfold srt (Hier h l) (S k) = Ok (Hier h l).
Proof.
  intros srt h l k hu f W N. destruct (insert_all h W) as [d1 [d2 [d3 [E1 [E2 E3]]]]].
  cbn [unfold]. rewrite E1, E2, E3, N. reflexivity.
Qed.

Theorem unfold_range : forall srt h (l : list (pex F)) id, Forall wire (wires h) ->
  id = 0%nat \/ (length l < id)%nat -> unfold srt (Hier h l) id = Fail.
Proof.
  intros srt h l id W R. destruct (insert_all h W) as [d1 [d2 [d3 [E1 [E2 E3]]]]].
  cbn [unfold]. rewrite E1, E2, E3. destruct id as [|k]; [reflexivity|].
  assert (N : nth_error l k = None) by (apply nth_error_None; lia). now rewrite N.
Qed.
End Unfold.
