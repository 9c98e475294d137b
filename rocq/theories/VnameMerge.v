(* Merging and extracting vectors keeps the scalars. *)
From Coq Require Import ZArith List Bool Ascii String Lia Permutation.
From Verif Require Import IlistModel IlistSpec IlistThms VnameModel VnameThms.
Import ListNotations.
Open Scope Z_scope.
Open Scope list_scope.

Local Notation length := List.length.

(* Names with the same signature have the same texts. *)
Definition alike (l : list vec) : Prop :=
  forall v w, In v l -> In w l -> signature v = signature w -> same_shape v w.

(* A name that starts with 0b is a constant. *)
Definition ok_const (v : vec) : Prop :=
  forall t, signature v = "0"%char :: "b"%char :: t ->
  exists s b l, v = [Txt (String "0" (String "b" s))] /\ const_bits s = Some (b :: l).

Definition good_names (l : list vec) : Prop :=
  Forall ok_const l /\ alike l /\ Forall indexed l.

(* --- shapes ----------------------------------------------------------------------- *)

Lemma shape_refl : forall v, same_shape v v.
Proof. induction v as [|[n|rs] v IH]; cbn; auto. Qed.

Lemma shape_sym : forall v w, same_shape v w -> same_shape w v.
Proof.
  induction v as [|[n|rs] v IH]; intros [|[m|ss] w] H; cbn in *; try contradiction; auto.
  destruct H as [-> H]. auto.
Qed.

Lemma shape_trans : forall u v w, same_shape u v -> same_shape v w -> same_shape u w.
Proof.
  induction u as [|[a|x] u IH]; intros [|[n|rs] v] [|[m|ss] w] H K; cbn in *; try contradiction; eauto.
  destruct H as [-> H]. destruct K as [-> K]. eauto.
Qed.

Lemma shape_signature : forall v w, same_shape v w -> signature v = signature w.
Proof.
  induction v as [|[n|rs] v IH]; intros [|[m|ss] w] H; cbn in *; try contradiction; auto.
  - destruct H as [-> H]. f_equal. auto.
  - f_equal. auto.
Qed.

Lemma sig_eqb_ok : forall v w, sig_eqb v w = true <-> signature v = signature w.
Proof.
  intros v w. unfold sig_eqb. destruct (list_eq_dec ascii_dec (signature v) (signature w)); split;
    congruence.
Qed.

(* --- constants ---------------------------------------------------------------------- *)

Lemma is_const_sig : forall v, is_const v = true -> exists t, signature v = "0"%char :: "b"%char :: t.
Proof.
  intros v H. destruct v as [|[n|rs] v]; try discriminate. destruct n as [|c n]; [discriminate|].
  cbn [is_const] in H.
  assert (C : c = "0"%char) by (destruct c as [[] [] [] [] [] [] [] []]; try discriminate; reflexivity).
  subst c. destruct n as [|d n]; [discriminate|].
  assert (D : d = "b"%char) by (destruct d as [[] [] [] [] [] [] [] []]; try discriminate; reflexivity).
  subst d. eexists. reflexivity.
Qed.

Lemma const_form : forall v, ok_const v -> is_const v = true ->
  exists s b l, v = [Txt (String "0" (String "b" s))] /\ const_bits s = Some (b :: l).
Proof. intros v O C. destruct (is_const_sig v C) as [t T]. exact (O t T). Qed.

Lemma scalars_const : forall s b l, const_bits s = Some (b :: l) ->
  scalars [Txt (String "0" (String "b" s))] = b :: l.
Proof. intros s b l H. cbn [scalars]. rewrite H. reflexivity. Qed.

Lemma scalars_other : forall v, is_const v = false -> scalars v = expand_vector v.
Proof.
  intros [|[n|rs] v] H; try reflexivity. destruct v; [|destruct n as [|c n]; try reflexivity].
  - destruct n as [|c n]; [reflexivity|]. destruct n as [|d n]; [destruct c as [[] [] [] [] [] [] [] []]; reflexivity|].
    destruct c as [[] [] [] [] [] [] [] []]; try reflexivity.
    destruct d as [[] [] [] [] [] [] [] []]; try reflexivity. discriminate.
  - destruct c as [[] [] [] [] [] [] [] []]; try reflexivity. destruct n as [|d n]; try reflexivity.
    destruct d as [[] [] [] [] [] [] [] []]; reflexivity.
Qed.

Lemma const_bits_app : forall x y a b, const_bits x = Some a -> const_bits y = Some b ->
  const_bits (x ++ y) = Some (a ++ b).
Proof.
  induction x as [|c x IH]; intros y a b A B; cbn in *; [injection A as <-; exact B|].
  destruct (Ascii.eqb c "0" || Ascii.eqb c "1" || Ascii.eqb c "x"); [|discriminate].
  destruct (const_bits x) as [l|]; [|discriminate]. injection A as <-.
  rewrite (IH y l b eq_refl B). reflexivity.
Qed.

Lemma join_const_ok : forall c d, ok_const c -> ok_const d -> is_const c = true -> is_const d = true ->
  ok_const (join_const c d) /\ scalars (join_const c d) = scalars c ++ scalars d
  /\ is_const (join_const c d) = true /\ indexed (join_const c d).
Proof.
  intros c d OC OD C D. destruct (const_form c OC C) as [s [b [l [-> B]]]].
  destruct (const_form d OD D) as [s' [b' [l' [-> B']]]]. cbn [join_const].
  change (String "0" (String "b" s) ++ s')%string with (String "0" (String "b" (s ++ s')%string)).
  assert (E := const_bits_app _ _ _ _ B B'). cbn [app] in E.
  rewrite !(scalars_const _ _ _ E), !(scalars_const _ _ _ B), !(scalars_const _ _ _ B').
  split; [|split; [reflexivity|split; [reflexivity|repeat constructor]]].
  intros t _. exists (s ++ s')%string, b, (l ++ b' :: l'). split; [reflexivity|exact E].
Qed.

(* --- comparison of two vectors ------------------------------------------------------------ *)

Lemma list_eqb_refl : forall a, list_eqb a a = true.
Proof. induction a as [|[x y] a IH]; [reflexivity|]. cbn. unfold pair_eqb. cbn. rewrite !Z.eqb_refl. exact IH. Qed.

Lemma same_rest_ok : forall a b, same_shape a b ->
  match same_rest a b with Some true => a = b | Some false => a <> b | None => False end.
Proof.
  induction a as [|[n|x] a IH]; intros [|[m|y] b] H; cbn in H; try contradiction; [reflexivity| |].
  - destruct H as [-> H]. cbn. specialize (IH b H). destruct (same_rest a b) as [[|]|]; congruence.
  - cbn. destruct (list_eqb x y) eqn:E.
    + apply list_eqb_eq in E. subst. specialize (IH b H). destruct (same_rest a b) as [[|]|]; congruence.
    + intros Q. injection Q as -> _. rewrite list_eqb_refl in E. discriminate.
Qed.

Lemma compare_ok : forall a b, same_shape a b ->
  match compare a b with
  | Some Same => a = b
  | Some (Differ p x y q) => a = p ++ Idx x :: q /\ b = p ++ Idx y :: q /\ x <> y
  | Some Unlike => True
  | None => False
  end.
Proof.
  induction a as [|[n|x] a IH]; intros [|[m|y] b] H; cbn in H; try contradiction; [reflexivity| |].
  - destruct H as [-> H]. cbn. specialize (IH b H). destruct (compare a b) as [[|p u v q|]|]; auto.
    + congruence.
    + destruct IH as [-> [-> N]]. auto.
  - cbn. destruct (list_eqb x y) eqn:E.
    + apply list_eqb_eq in E. subst. specialize (IH b H). destruct (compare a b) as [[|p u v q|]|]; auto.
      * congruence.
      * destruct IH as [-> [-> N]]. auto.
    + assert (Q := same_rest_ok a b H). destruct (same_rest a b) as [[|]|]; auto.
      subst. split; [reflexivity|]. split; [reflexivity|]. intros ->. rewrite list_eqb_refl in E. discriminate.
Qed.

Lemma join_ranges_ok : forall x y e r, x <> [] -> y <> [] -> join_ranges x y = (e, r) ->
  ints r = ints x ++ ints y /\ r <> [].
Proof.
  induction x as [|[u1 l1] x IH]; intros y e r NX NY H; [congruence|]. destruct x as [|p x].
  - destruct y as [|[u2 l2] y]; [congruence|]. cbn in H.
    match type of H with context [if ?c then _ else _] => destruct c eqn:C1 end.
    + injection H as <- <-. split; [|discriminate]. rewrite !ints_cons. cbn [fst snd ints flat_map].
      rewrite app_nil_r, app_assoc. f_equal.
      apply andb_true_iff in C1 as [C1 C3]. apply andb_true_iff in C1 as [C1 C2]. apply Z.eqb_eq in C3.
      subst u2. symmetry. apply run_app_down; lia.
    + match type of H with context [if ?c then _ else _] => destruct c eqn:C4 end.
      * injection H as <- <-. split; [|discriminate]. rewrite !ints_cons. cbn [fst snd ints flat_map].
        rewrite app_nil_r, app_assoc. f_equal.
        apply andb_true_iff in C4 as [C4 C3]. apply andb_true_iff in C4 as [C4 C2]. apply Z.eqb_eq in C3.
        subst u2. symmetry. apply run_app_up; lia.
      * injection H as <- <-. split; [|discriminate]. rewrite !ints_cons. cbn [ints flat_map].
        rewrite app_nil_r. reflexivity.
  - change (join_ranges ((u1, l1) :: p :: x) y)
      with (let (e, r) := join_ranges (p :: x) y in (e, (u1, l1) :: r)) in H.
    destruct (join_ranges (p :: x) y) as [e' r'] eqn:E. injection H as <- <-.
    destruct (IH y e' r') as [I1 I2]; [discriminate|exact NY|exact E|]. split; [|discriminate].
    rewrite ints_cons, I1, (ints_cons (u1, l1)), app_assoc. reflexivity.
Qed.

(* --- expansion of a joined vector ------------------------------------------------------------ *)

Lemma flat_map_app_perm : forall A B (f g : A -> list B) l,
  Permutation (flat_map (fun i => f i ++ g i) l) (flat_map f l ++ flat_map g l).
Proof.
  intros A B f g. induction l as [|a l IH]; [constructor|]. cbn [flat_map].
  rewrite IH. rewrite <- !app_assoc. apply Permutation_app_head.
  rewrite !app_assoc. apply Permutation_app_tail. apply Permutation_app_comm.
Qed.

Lemma flat_map_perm_ext : forall A B (f g : A -> list B) l,
  (forall a, Permutation (f a) (g a)) -> Permutation (flat_map f l) (flat_map g l).
Proof.
  intros A B f g l H. induction l as [|a l IH]; [constructor|]. cbn. apply Permutation_app; [apply H|exact IH].
Qed.

Lemma expand_join : forall p x y r q, ints r = ints x ++ ints y ->
  Permutation (expand_vector (p ++ Idx r :: q))
              (expand_vector (p ++ Idx x :: q) ++ expand_vector (p ++ Idx y :: q)).
Proof.
  induction p as [|[n|s] p IH]; intros x y r q H.
  - cbn [app]. rewrite !expand_idx, H, flat_map_app. reflexivity.
  - cbn [app expand_vector]. rewrite <- map_app. apply Permutation_map. apply IH; exact H.
  - cbn [app]. rewrite !expand_idx. etransitivity; [|apply flat_map_app_perm].
    apply flat_map_perm_ext. intros i. rewrite <- map_app. apply Permutation_map. apply IH; exact H.
Qed.

Definition has_index (e : vel) : bool := match e with Idx _ => true | Txt _ => false end.
Definition one_dim (v : vec) : Prop := (length (filter has_index v) <= 1)%nat.

Lemma expand_join_eq : forall p x y r q, ints r = ints x ++ ints y -> filter has_index p = [] ->
  expand_vector (p ++ Idx r :: q) = expand_vector (p ++ Idx x :: q) ++ expand_vector (p ++ Idx y :: q).
Proof.
  induction p as [|[n|s] p IH]; intros x y r q H F; [| |discriminate].
  - cbn [app]. rewrite !expand_idx, H, flat_map_app. reflexivity.
  - cbn [app expand_vector]. rewrite (IH x y r q H F), map_app. reflexivity.
Qed.

Lemma one_dim_prefix : forall p x q, one_dim (p ++ Idx x :: q) -> filter has_index p = [].
Proof.
  intros p x q H. unfold one_dim in H. rewrite filter_app, app_length in H. cbn in H.
  destruct (filter has_index p); [reflexivity|cbn in H; lia].
Qed.

Lemma one_dim_swap : forall p x y q, one_dim (p ++ Idx x :: q) -> one_dim (p ++ Idx y :: q).
Proof. intros p x y q. unfold one_dim. rewrite !filter_app, !app_length. cbn. auto. Qed.

Lemma expand_union : forall p x y r q,
  (forall i, In i (ints r) <-> In i (ints x) \/ In i (ints y)) ->
  forall e, In e (expand_vector (p ++ Idx r :: q)) <->
            In e (expand_vector (p ++ Idx x :: q)) \/ In e (expand_vector (p ++ Idx y :: q)).
Proof.
  induction p as [|[n|s] p IH]; intros x y r q H e.
  - cbn [app]. rewrite !expand_idx, !in_flat_map. split.
    + intros [i [I E]]. apply H in I as [I|I]; [left|right]; exists i; auto.
    + intros [[i [I E]]|[i [I E]]]; exists i; (split; [apply H; auto|exact E]).
  - cbn [app expand_vector]. rewrite !in_map_iff. split.
    + intros [w [W E]]. apply (IH x y r q H) in E as [E|E]; [left|right]; exists w; auto.
    + intros [[w [W E]]|[w [W E]]]; exists w; (split; [exact W|apply (IH x y r q H); auto]).
  - cbn [app]. rewrite !expand_idx, !in_flat_map. split.
    + intros [i [I E]]. apply in_map_iff in E as [w [W E]]. apply (IH x y r q H) in E as [E|E];
        [left|right]; exists i; (split; [exact I|]); apply in_map_iff; exists w; auto.
    + intros [[i [I E]]|[i [I E]]]; apply in_map_iff in E as [w [W E]]; exists i;
        (split; [exact I|]); apply in_map_iff; exists w; (split; [exact W|apply (IH x y r q H); auto]).
Qed.

Lemma shape_swap : forall p x r q, same_shape (p ++ Idx x :: q) (p ++ Idx r :: q).
Proof.
  induction p as [|[n|s] p IH]; intros x r q; cbn; auto. apply shape_refl.
Qed.

Lemma indexed_swap : forall p x r q, r <> [] -> indexed (p ++ Idx x :: q) -> indexed (p ++ Idx r :: q).
Proof.
  intros p x r q N H. unfold indexed in *. rewrite Forall_app in *. destruct H as [H1 H2].
  inversion H2 as [|? ? H3 H4]; subst. split; [exact H1|]. constructor; [|exact H4].
  destruct r; [congruence|exact I].
Qed.

Lemma indexed_part : forall p x q, indexed (p ++ Idx x :: q) -> x <> [].
Proof.
  intros p x q H. unfold indexed in H. rewrite Forall_app in H. destruct H as [_ H].
  inversion H as [|? ? H3 H4]; subst. destruct x; [destruct H3|discriminate].
Qed.

Lemma is_const_swap : forall p x r q, ok_const (p ++ Idx x :: q) -> is_const (p ++ Idx r :: q) = false.
Proof.
  intros p x r q O. destruct (is_const (p ++ Idx r :: q)) eqn:C; [|reflexivity].
  destruct (is_const_sig _ C) as [t T].
  rewrite <- (shape_signature _ _ (shape_swap p x r q)) in T. destruct (O t T) as [s [b [l [E _]]]].
  destruct p as [|e [|e2 p]]; discriminate.
Qed.

Lemma ok_const_swap : forall p x r q, ok_const (p ++ Idx x :: q) -> ok_const (p ++ Idx r :: q).
Proof.
  intros p x r q O t T. rewrite <- (shape_signature _ _ (shape_swap p x r q)) in T.
  destruct (O t T) as [s [b [l [E _]]]]. destruct p as [|e [|e2 p]]; discriminate.
Qed.

(* --- good_names is kept ----------------------------------------------------------------------- *)

Lemma good_incl : forall l l', good_names l -> (forall v, In v l' -> In v l) -> good_names l'.
Proof.
  intros l l' [G1 [G2 G3]] I. rewrite Forall_forall in G1, G3. split; [|split].
  - apply Forall_forall. auto.
  - intros v w V W. apply G2; auto.
  - apply Forall_forall. auto.
Qed.

Lemma good_shape : forall l m c, good_names l -> In c l -> same_shape c m -> ok_const m -> indexed m ->
  good_names (m :: l).
Proof.
  intros l m c [G1 [G2 G3]] C S O X. split; [constructor; assumption|]. split; [|constructor; assumption].
  assert (Q : forall w, In w l -> signature m = signature w -> same_shape m w).
  { intros w W E. apply shape_trans with c; [apply shape_sym; exact S|]. apply G2; auto.
    rewrite (shape_signature _ _ S). exact E. }
  intros v w [<-|V] [<-|W] E.
  - apply shape_refl.
  - apply Q; assumption.
  - apply shape_sym. apply Q; [exact V|symmetry; exact E].
  - apply G2; assumption.
Qed.

Lemma good_const : forall l m, good_names l -> is_const m = true -> ok_const m -> indexed m ->
  good_names (m :: l).
Proof.
  intros l m [G1 [G2 G3]] C O X. split; [constructor; assumption|]. split; [|constructor; assumption].
  assert (Q : forall w, In w l -> signature m = signature w -> same_shape m w).
  { intros w W E. destruct (is_const_sig m C) as [t T]. destruct (O t T) as [s [b [k [-> _]]]].
    rewrite Forall_forall in G1. rewrite T in E. destruct (G1 w W t (eq_sym E)) as [s' [b' [k' [-> _]]]].
    cbn in T, E. split; [|exact I]. rewrite app_nil_r in T, E. injection T as T. injection E as E.
    do 2 f_equal. rewrite <- (string_of_list_ascii_of_string s), <- (string_of_list_ascii_of_string s').
    congruence. }
  intros v w [<-|V] [<-|W] E.
  - apply shape_refl.
  - apply Q; assumption.
  - apply shape_sym. apply Q; [exact V|symmetry; exact E].
  - apply G2; assumption.
Qed.

Lemma good_names_replace : forall a c d b m, good_names (a ++ c :: d :: b) ->
  good_names (m :: a ++ c :: d :: b) -> good_names (a ++ m :: b).
Proof.
  intros a c d b m _ G. apply (good_incl _ _ G). intros v V. apply in_app_iff in V as [V|[<-|V]].
  - right. apply in_or_app. left. exact V.
  - left. reflexivity.
  - right. apply in_or_app. right. right. right. exact V.
Qed.

(* --- gen_merge_vectors --------------------------------------------------------------------------- *)

Definition all_scalars (l : list vec) : list vec := flat_map scalars l.

Lemma wrap_unzip : forall z, unzip (wrap z) = unzip z.
Proof.
  intros [[a c] [|d b]]; [|reflexivity]. cbn [wrap]. destruct (rev a ++ [c]) as [|h t] eqn:E.
  - destruct (rev a); discriminate.
  - cbn. rewrite E. reflexivity.
Qed.

Lemma wrap_single : forall z a c, wrap z = (a, c, []) -> a = [].
Proof.
  intros [[a0 c0] [|d b]] a c H; cbn in H; [|congruence]. destruct (rev a0 ++ [c0]) eqn:E; [destruct (rev a0); discriminate|congruence].
Qed.

Definition counted (l : list vec) (alts : nat) : Prop :=
  length l = alts \/ ((length l < alts)%nat /\ exists v, In v l /\ is_const v = false).

Record step_ok (l l' : list vec) (nc nc' alts alts' : nat) : Prop := {
  so_good : good_names l';
  so_perm : Permutation (all_scalars l') (all_scalars l);
  so_one : Forall one_dim l -> Forall one_dim l' /\ all_scalars l' = all_scalars l;
  so_count : counted l' alts';
  so_alts : (alts' <= alts)%nat;
  so_less : (length l' < length l)%nat \/ (length l' = length l /\ nc' = S nc /\ alts' = alts)
}.

Lemma all_scalars_mid : forall a m b, all_scalars (a ++ m :: b) = all_scalars a ++ scalars m ++ all_scalars b.
Proof. intros a m b. unfold all_scalars. rewrite flat_map_app. reflexivity. Qed.

Lemma merge_step_ok : forall s, good_names (unzip (m_z s)) -> counted (unzip (m_z s)) (m_alts s) ->
  (1 < m_alts s)%nat ->
  exists s', merge_step s = Some s' /\
    step_ok (unzip (m_z s)) (unzip (m_z s')) (m_nc s) (m_nc s') (m_alts s) (m_alts s').
Proof.
  intros [z nc alts] G C A. cbn [m_z m_nc m_alts] in *. unfold merge_step. cbn [m_z m_nc m_alts].
  destruct (wrap z) as [[a c] b] eqn:W. assert (U : unzip z = rev a ++ c :: b).
  { rewrite <- wrap_unzip, W. reflexivity. }
  rewrite U in *. destruct b as [|d b].
  - apply wrap_single in W. subst a. cbn [rev app] in *.
    destruct C as [C|[C [v [V N]]]]; [cbn in C; lia|]. destruct V as [<-|[]]. rewrite N.
    eexists. split; [reflexivity|]. cbn. split; auto.
    + right. split; [exact C|]. exists c. cbn. auto.
  - destruct (is_const c && is_const d) eqn:CD.
    + apply andb_true_iff in CD as [CC CD].
      assert (OC : ok_const c) by (destruct G as [G _]; rewrite Forall_forall in G; apply G; apply in_or_app; right; left; reflexivity).
      assert (OD : ok_const d) by (destruct G as [G _]; rewrite Forall_forall in G; apply G; apply in_or_app; right; right; left; reflexivity).
      destruct (join_const_ok c d OC OD CC CD) as [J1 [J2 [J3 J4]]].
      eexists. split; [reflexivity|]. cbn [m_z m_nc m_alts unzip]. split.
      * apply (good_names_replace (rev a) c d b _ G). apply good_const; assumption.
      * rewrite !all_scalars_mid, J2. cbn [all_scalars flat_map]. rewrite <- !app_assoc. reflexivity.
      * intros F. split.
        -- apply Forall_app in F as [F1 F2]. apply Forall_app. split; [exact F1|].
           inversion F2 as [|? ? F3 F4]; subst. inversion F4; subst. constructor; [|assumption].
           destruct (const_form _ J1 J3) as [s [b0 [l [-> _]]]]. unfold one_dim. cbn. lia.
        -- rewrite !all_scalars_mid, J2. cbn [all_scalars flat_map]. rewrite <- !app_assoc. reflexivity.
      * destruct C as [C|[C [v [V N]]]].
        -- left. rewrite !app_length in *. cbn in *. lia.
        -- right. rewrite !app_length in *. cbn in *. split; [lia|]. exists v. split; [|exact N].
           apply in_app_iff in V as [V|[<-|[<-|V]]]; try congruence; apply in_or_app; auto. right. right. exact V.
      * lia.
      * left. rewrite !app_length. cbn. lia.
    + assert (MV : step_ok (rev a ++ c :: d :: b) (rev (c :: a) ++ d :: b) nc (S nc) alts alts).
      { cbn [rev]. rewrite <- app_assoc. cbn [app]. split; auto. }
      destruct (sig_eqb c d) eqn:SG; [|eexists; split; [reflexivity|exact MV]].
      apply sig_eqb_ok in SG.
      assert (IC : In c (rev a ++ c :: d :: b)) by (apply in_or_app; right; left; reflexivity).
      assert (ID : In d (rev a ++ c :: d :: b)) by (apply in_or_app; right; right; left; reflexivity).
      assert (SH : same_shape c d) by (destruct G as [_ [G _]]; apply G; assumption).
      assert (Q := compare_ok c d SH).
      destruct (compare c d) as [[|p x y q|]|]; [eexists; split; [reflexivity|exact MV]| |eexists; split; [reflexivity|exact MV]|contradiction].
      destruct Q as [EC [ED NXY]].
      assert (OC : ok_const c) by (destruct G as [G _]; rewrite Forall_forall in G; apply G; exact IC).
      assert (XC : indexed c) by (destruct G as [_ [_ G]]; rewrite Forall_forall in G; apply G; exact IC).
      assert (XD : indexed d) by (destruct G as [_ [_ G]]; rewrite Forall_forall in G; apply G; exact ID).
      rewrite EC in XC, OC. rewrite ED in XD.
      assert (NX := indexed_part _ _ _ XC). assert (NY := indexed_part _ _ _ XD).
      destruct (join_ranges x y) as [e r] eqn:J.
      destruct (join_ranges_ok x y e r NX NY J) as [JI JN].
      assert (KC : is_const c = false) by (rewrite EC; apply (is_const_swap p x x q OC)).
      assert (KD : is_const d = false) by (rewrite ED; apply (is_const_swap p x y q OC)).
      assert (KM : is_const (p ++ Idx r :: q) = false) by (apply (is_const_swap p x r q OC)).
      destruct x as [|x0 x]; [congruence|]. destruct y as [|y0 y]; [congruence|].
      eexists. split; [reflexivity|]. cbn [m_z m_nc m_alts unzip]. split.
      * apply (good_names_replace (rev a) c d b _ G). apply (good_shape _ _ c G IC).
        -- rewrite EC. apply shape_swap.
        -- apply (ok_const_swap p (x0 :: x)). exact OC.
        -- apply (indexed_swap p (x0 :: x)); assumption.
      * rewrite !all_scalars_mid. cbn [all_scalars flat_map]. rewrite !scalars_other by assumption.
        apply Permutation_app_head. rewrite app_assoc. apply Permutation_app_tail.
        rewrite EC, ED. apply expand_join. exact JI.
      * intros F. split.
        -- apply Forall_app in F as [F1 F2]. apply Forall_app. split; [exact F1|].
           inversion F2 as [|? ? F3 F4]; subst. inversion F4; subst. constructor; [|assumption].
           apply (one_dim_swap p (x0 :: x)). exact F3.
        -- rewrite !all_scalars_mid. cbn [all_scalars flat_map]. rewrite !scalars_other by assumption.
           f_equal. rewrite app_assoc. f_equal. rewrite EC, ED. apply expand_join_eq; [exact JI|].
           rewrite Forall_forall in F. specialize (F c IC). rewrite EC in F. exact (one_dim_prefix _ _ _ F).
      * unfold counted in C. rewrite app_length in C. cbn [length] in C.
        assert (NC : exists v, In v (rev a ++ (p ++ Idx r :: q) :: b) /\ is_const v = false).
        { eexists. split; [apply in_or_app; right; left; reflexivity|exact KM]. }
        unfold counted. rewrite app_length. cbn [length].
        destruct e; destruct C as [C|[C _]]; try (left; lia); right; (split; [lia|exact NC]).
      * destruct e; lia.
      * left. rewrite !app_length. cbn. lia.
Qed.

Lemma merge_loop_ok : forall A fuel s, good_names (unzip (m_z s)) -> counted (unzip (m_z s)) (m_alts s) ->
  (m_alts s <= A)%nat -> (m_nc s <= A)%nat ->
  (length (unzip (m_z s)) * S A + (A - m_nc s) < fuel)%nat ->
  exists out, merge_loop fuel s = Some out /\ good_names out
    /\ Permutation (all_scalars out) (all_scalars (unzip (m_z s)))
    /\ (Forall one_dim (unzip (m_z s)) -> all_scalars out = all_scalars (unzip (m_z s))).
Proof.
  intros A. induction fuel as [|k IH]; intros s G C H1 H2 F; [lia|]. cbn [merge_loop].
  destruct ((1 <? m_alts s)%nat && (m_nc s <? m_alts s)%nat) eqn:B.
  - apply andb_true_iff in B as [B1 B2]. apply Nat.ltb_lt in B1, B2.
    destruct (merge_step_ok s G C B1) as [s' [E [S1 S2 S3 S4 S5 S6]]]. rewrite E.
    destruct (IH s' S1 S4) as [out [O1 [O2 [O3 O4]]]].
    + lia.
    + destruct S6 as [S6|[_ [-> _]]]; [|lia].
      (* the counter was reset *)
      clear - S6 H2 E B2 H1. unfold merge_step in E. destruct (wrap (m_z s)) as [[a c] b] eqn:W.
      assert (U : unzip (m_z s) = rev a ++ c :: b) by (rewrite <- wrap_unzip, W; reflexivity).
      rewrite U in S6. destruct b as [|d b].
      * destruct (is_const c); injection E as <-; cbn in *; lia.
      * destruct (is_const c && is_const d); [injection E as <-; cbn; lia|].
        destruct (sig_eqb c d); [destruct (compare c d) as [[|p [|? ?] [|? ?] q|]|]|]; try discriminate;
          try (injection E as <-; cbn; lia).
        destruct (join_ranges _ _). injection E as <-. cbn. lia.
    + destruct S6 as [S6|[S6 [S7 S8]]].
      * nia.
      * rewrite S6, S7. lia.
    + exists out. split; [exact O1|]. split; [exact O2|]. split; [etransitivity; eassumption|].
      intros O. destruct (S3 O) as [S3a S3b]. rewrite O4 by exact S3a. exact S3b.
  - exists (unzip (m_z s)). auto.
Qed.

Theorem merge_vectors_ok : forall l, good_names l ->
  exists out, merge_vectors l = Some out /\ good_names out /\ Permutation (all_scalars out) (all_scalars l)
    /\ (Forall one_dim l -> all_scalars out = all_scalars l).
Proof.
  intros [|h t] G.
  - exists []. cbn. auto.
  - unfold merge_vectors.
    destruct (merge_loop_ok (length (h :: t)) (S (length (h :: t) * S (length (h :: t)) + length (h :: t)))
      (MS ([], h, t) 0 (length (h :: t)))) as [out O].
    + exact G.
    + left. reflexivity.
    + reflexivity.
    + cbn. lia.
    + change (unzip (m_z (MS ([], h, t) 0 (length (h :: t))))) with (h :: t). cbn [m_nc]. lia.
    + exists out. exact O.
Qed.

(* --- gen_extract_vectors ------------------------------------------------------------------------------ *)

Definition oriented_vec (v : vec) : Prop :=
  Forall (fun e => match e with Idx rs => oriented rs | Txt _ => True end) v.

Lemma oriented_part : forall p x q, oriented_vec (p ++ Idx x :: q) -> oriented x.
Proof.
  intros p x q H. unfold oriented_vec in H. rewrite Forall_app in H. destruct H as [_ H].
  inversion H; assumption.
Qed.

Lemma oriented_swap : forall p x r q, oriented r -> oriented_vec (p ++ Idx x :: q) -> oriented_vec (p ++ Idx r :: q).
Proof.
  intros p x r q R H. unfold oriented_vec in *. rewrite Forall_app in *. destruct H as [H1 H2].
  inversion H2; subst. split; [exact H1|]. constructor; assumption.
Qed.

Lemma compress_nonempty : forall x y, oriented x -> oriented y -> x <> [] -> compress_ranges x y <> [].
Proof.
  intros x y OX OY N E. destruct (compress_ok (length x + length y) x y OX OY (le_n _)) as [_ U].
  destruct (ints_nonempty x N) as [i I]. assert (Q := proj2 (U i) (or_introl I)).
  unfold compress_ranges in E. rewrite E in Q. destruct Q.
Qed.

Lemma in_all_scalars : forall e l, In e (all_scalars l) <-> exists v, In v l /\ In e (scalars v).
Proof. intros e l. apply in_flat_map. Qed.

Lemma extract_step_ok : forall s, good_names (e_l s) -> Forall oriented_vec (e_l s) ->
  (1 < length (e_l s))%nat ->
  exists s', extract_step s = Some s' /\ good_names (e_l s') /\ Forall oriented_vec (e_l s')
    /\ (forall e, In e (all_scalars (e_l s')) <-> In e (all_scalars (e_l s)))
    /\ ((S (length (e_l s')) = length (e_l s) /\ e_nc s' = 0%nat)
        \/ (length (e_l s') = length (e_l s) /\ e_nc s' = S (e_nc s))).
Proof.
  intros [l nc] G O L. cbn [e_l e_nc] in *. destruct l as [|c [|d b]]; [cbn in L; lia|cbn in L; lia|].
  unfold extract_step. cbn [e_l e_nc].
  assert (MV : exists s', Some (ES (d :: b ++ [c]) (S nc)) = Some s' /\ good_names (e_l s') /\ Forall oriented_vec (e_l s')
    /\ (forall e, In e (all_scalars (e_l s')) <-> In e (all_scalars (c :: d :: b)))
    /\ ((S (length (e_l s')) = length (c :: d :: b) /\ e_nc s' = 0%nat)
        \/ (length (e_l s') = length (c :: d :: b) /\ e_nc s' = S nc))).
  { assert (I : forall v, In v (d :: b ++ [c]) <-> In v (c :: d :: b)).
    { intros v. cbn. rewrite in_app_iff. cbn. tauto. }
    eexists. split; [reflexivity|]. cbn [e_l e_nc]. split; [|split; [|split]].
    - apply (good_incl _ _ G). intros v V. apply I. exact V.
    - rewrite Forall_forall in O |- *. intros v V. apply O. apply I. exact V.
    - intros e. rewrite !in_all_scalars. split; intros [v [V E]]; exists v; (split; [apply I; exact V|exact E]).
    - right. split; [cbn; rewrite app_length; cbn; lia|reflexivity]. }
  destruct (negb (sig_eqb c d) || is_const c) eqn:T; [exact MV|].
  apply orb_false_iff in T as [T1 T2]. apply negb_false_iff, sig_eqb_ok in T1.
  assert (SH : same_shape c d) by (destruct G as [_ [G _]]; apply G; cbn; auto).
  assert (Q := compare_ok c d SH).
  inversion O as [|? ? O1 O2]; subst. inversion O2 as [|? ? O3 O4]; subst.
  destruct (compare c d) as [[|p x y q|]|]; [| |exact MV|contradiction].
  - subst d. eexists. split; [reflexivity|]. cbn [e_l e_nc]. split; [|split; [|split]].
    + apply (good_incl _ _ G). intros v [<-|V]; cbn; auto.
    + constructor; assumption.
    + intros e. cbn. rewrite !in_app_iff. tauto.
    + left. split; reflexivity.
  - destruct Q as [EC [ED NXY]].
    assert (OC : ok_const c) by (destruct G as [G _]; rewrite Forall_forall in G; apply G; left; reflexivity).
    assert (XC : indexed c) by (destruct G as [_ [_ G]]; rewrite Forall_forall in G; apply G; left; reflexivity).
    rewrite EC in XC, OC. assert (NX := indexed_part _ _ _ XC).
    assert (OX : oriented x) by (apply (oriented_part p x q); rewrite <- EC; exact O1).
    assert (OY : oriented y) by (apply (oriented_part p y q); rewrite <- ED; exact O3).
    destruct (compress_ok (length x + length y) x y OX OY (le_n _)) as [CO CU].
    fold (compress_ranges x y) in CO, CU.
    assert (KD : is_const d = false) by (rewrite ED; apply (is_const_swap p x y q OC)).
    assert (KM : is_const (p ++ Idx (compress_ranges x y) :: q) = false) by (apply (is_const_swap p x _ q OC)).
    eexists. split; [reflexivity|]. cbn [e_l e_nc]. split; [|split; [|split]].
    + apply (good_names_replace [] c d b _ G). apply (good_shape _ _ c G); [left; reflexivity|rewrite EC; apply shape_swap| |].
      * apply (ok_const_swap p x). exact OC.
      * apply (indexed_swap p x); [|exact XC]. apply compress_nonempty; assumption.
    + constructor; [|exact O4]. apply (oriented_swap p x); [exact CO|]. rewrite <- EC. exact O1.
    + intros e. cbn [all_scalars flat_map]. rewrite !in_app_iff, !scalars_other by assumption.
      rewrite (expand_union p x y _ q CU), EC, ED. tauto.
    + left. split; reflexivity.
Qed.

Lemma extract_loop_ok : forall N fuel s, good_names (e_l s) -> Forall oriented_vec (e_l s) ->
  (length (e_l s) <= N)%nat -> (e_nc s <= S N)%nat ->
  (length (e_l s) * S (S N) + (S N - e_nc s) < fuel)%nat ->
  exists out, extract_loop fuel s = Some out /\ forall e, In e (all_scalars out) <-> In e (all_scalars (e_l s)).
Proof.
  intros N. induction fuel as [|k IH]; intros s G O H1 H2 F; [lia|]. cbn [extract_loop].
  destruct ((1 <? length (e_l s))%nat && (e_nc s <=? length (e_l s))%nat) eqn:B.
  - apply andb_true_iff in B as [B1 B2]. apply Nat.ltb_lt in B1. apply Nat.leb_le in B2.
    destruct (extract_step_ok s G O B1) as [s' [E [S1 [S2 [S3 S4]]]]]. rewrite E.
    destruct (IH s' S1 S2) as [out [O1 O2]].
    + lia.
    + lia.
    + destruct S4 as [[S4 S5]|[S4 S5]]; rewrite S5.
      * nia.
      * rewrite S4. lia.
    + exists out. split; [exact O1|]. intros e. rewrite O2. apply S3.
  - exists (e_l s). split; [reflexivity|tauto].
Qed.

Theorem extract_sorted_ok : forall l, good_names l -> Forall oriented_vec l ->
  exists out, extract_sorted l = Some out /\ forall e, In e (all_scalars out) <-> In e (all_scalars l).
Proof.
  intros l G O. unfold extract_sorted.
  apply (extract_loop_ok (length l) _ (ES l 0)); cbn [e_l e_nc]; try assumption; lia.
Qed.

(* --- canonical vectors ------------------------------------------------------------------------------- *)

Definition tidy (v : vec) : Prop :=
  Forall (fun e => match e with
                   | Txt _ => True
                   | Idx rs => no_special rs /\ (falling rs \/ exists p, rs = [p])
                   end) v.

Lemma canonical_tidy : forall rs, no_special rs -> (falling rs \/ exists p, rs = [p]) ->
  forall x, In x (ints (canonical rs)) <-> In x (ints rs).
Proof.
  intros rs NS [F|[[u l] ->]] x.
  - rewrite canonical_falling by exact F. tauto.
  - rewrite canonical_one. inversion NS as [|? ? N _]; subst.
    destruct ((u =? -1) && (l =? 0)) eqn:E; [tauto|].
    rewrite !in_ints_cons. cbn [fst snd ints flat_map In]. lia.
Qed.

Lemma canonical_vec_ok : forall v, tidy v -> indexed v -> oriented_vec (canonical_vec v) /\ indexed (canonical_vec v)
  /\ same_shape v (canonical_vec v)
  /\ forall e, In e (expand_vector (canonical_vec v)) <-> In e (expand_vector v).
Proof.
  induction v as [|[n|rs] v IH]; intros T X.
  - split; [constructor|]. split; [constructor|]. split; [exact I|]. tauto.
  - inversion T; subst. inversion X; subst. destruct (IH) as [I1 [I2 [I3 I4]]]; try assumption.
    cbn [canonical_vec map]. fold (canonical_vec v).
    split; [constructor; [exact I|exact I1]|]. split; [constructor; [exact I|exact I2]|].
    split; [split; [reflexivity|exact I3]|]. intros e. cbn [expand_vector]. rewrite !in_map_iff.
    split; intros [w [W E]]; exists w; (split; [exact W|apply I4; exact E]).
  - inversion T as [|? ? T0 T3]; subst. destruct T0 as [T1 T2]. inversion X as [|? ? X1 X2]; subst.
    destruct (IH) as [I1 [I2 [I3 I4]]]; try assumption.
    cbn [canonical_vec map]. fold (canonical_vec v).
    destruct (canonical_superset rs T1) as [C1 C2]. assert (C3 := canonical_tidy rs T1 T2).
    split; [constructor; [exact C1|exact I1]|]. split; [|split; [exact I3|]].
    + constructor; [|exact I2]. destruct (ints_nonempty rs) as [i Hi]; [intros ->; exact X1|].
      apply C2 in Hi. destruct (canonical rs); [destruct Hi|exact I].
    + intros e. rewrite !expand_idx, !in_flat_map.
      split; intros [i [Hi E]]; exists i; (split; [apply C3; exact Hi|]); apply in_map_iff in E as [w [W E]];
        apply in_map_iff; exists w; (split; [exact W|apply I4; exact E]).
Qed.

Lemma ok_const_shape : forall v w, same_shape v w -> ok_const v -> ok_const w.
Proof.
  intros v w S O t T. rewrite <- (shape_signature _ _ S) in T. destruct (O t T) as [s [b [l [-> E]]]].
  destruct w as [|[m|ss] [|? ?]]; cbn in S; try contradiction; try (destruct S; contradiction).
  destruct S as [<- _]. exists s, b, l. auto.
Qed.

Lemma canonical_scalars : forall v, tidy v -> indexed v -> ok_const v ->
  forall e, In e (scalars (canonical_vec v)) <-> In e (scalars v).
Proof.
  intros v T X O e. destruct (is_const v) eqn:C.
  - destruct (const_form v O C) as [s [b [l [-> B]]]]. cbn. tauto.
  - destruct (canonical_vec_ok v T X) as [_ [_ [SH E]]].
    rewrite !scalars_other; [apply E|exact C|].
    destruct v as [|[n|rs] v]; [reflexivity|exact C|reflexivity].
Qed.

(* extract_vectors: canonical ranges, a sort (any permutation), gen_extract_vectors. *)
Theorem extract_vectors_ok : forall l sorted, good_names l -> Forall tidy l ->
  Permutation sorted (map canonical_vec l) ->
  exists out, extract_sorted sorted = Some out
    /\ forall e, In e (all_scalars out) <-> In e (all_scalars l).
Proof.
  intros l sorted G T P. rewrite Forall_forall in T.
  assert (GC : good_names (map canonical_vec l) /\ Forall oriented_vec (map canonical_vec l)
    /\ forall e, In e (all_scalars (map canonical_vec l)) <-> In e (all_scalars l)).
  { destruct G as [G1 [G2 G3]]. rewrite Forall_forall in G1, G3. split; [split; [|split]|split].
    - apply Forall_forall. intros w W. apply in_map_iff in W as [v [<- V]].
      apply (ok_const_shape v); [apply canonical_vec_ok; auto|auto].
    - intros w1 w2 W1 W2 E. apply in_map_iff in W1 as [v1 [<- V1]]. apply in_map_iff in W2 as [v2 [<- V2]].
      destruct (canonical_vec_ok v1) as [_ [_ [S1 _]]]; auto.
      destruct (canonical_vec_ok v2) as [_ [_ [S2 _]]]; auto.
      apply shape_trans with v1; [apply shape_sym; exact S1|]. apply shape_trans with v2; [|exact S2].
      apply G2; auto. rewrite (shape_signature _ _ S1), (shape_signature _ _ S2). exact E.
    - apply Forall_forall. intros w W. apply in_map_iff in W as [v [<- V]]. apply canonical_vec_ok; auto.
    - apply Forall_forall. intros w W. apply in_map_iff in W as [v [<- V]]. apply canonical_vec_ok; auto.
    - intros e. rewrite !in_all_scalars. split.
      + intros [w [W E]]. apply in_map_iff in W as [v [<- V]]. exists v. split; [exact V|].
        apply (canonical_scalars v (T v V) (G3 v V) (G1 v V)). exact E.
      + intros [v [V E]]. exists (canonical_vec v). split; [apply in_map; exact V|].
        apply canonical_scalars; auto. }
  destruct GC as [GC [OC SC]].
  assert (INC : forall v, In v sorted <-> In v (map canonical_vec l)).
  { intros v. split; apply Permutation_in; [exact P|apply Permutation_sym; exact P]. }
  destruct (extract_sorted_ok sorted) as [out [O1 O2]].
  - apply (good_incl _ _ GC). intros v V. apply INC; exact V.
  - rewrite Forall_forall in OC |- *. intros v V. apply OC. apply INC; exact V.
  - exists out. split; [exact O1|]. intros e. rewrite O2, <- SC, !in_all_scalars.
    split; intros [v [V E]]; exists v; (split; [apply INC; exact V|exact E]).
Qed.

(* --- show_contig_vector ------------------------------------------------------------------------------- *)

Lemma flat_map_map_cons : forall e (l : list vec),
  flat_map expand_vector (map (cons e) l)
  = flat_map (fun v => expand_vector (e :: v)) l.
Proof. induction l as [|v l IH]; [reflexivity|]. cbn [map flat_map]. rewrite IH. reflexivity. Qed.

Lemma flat_map_product : forall A B C (f : A -> B -> list C) la lb,
  Permutation (flat_map (fun b => flat_map (fun a => f a b) la) lb) (flat_map (fun a => flat_map (f a) lb) la).
Proof.
  intros A B C f la. induction lb as [|b lb IH].
  - cbn. induction la; [constructor|exact IHla].
  - cbn [flat_map]. etransitivity; [apply Permutation_app_head; exact IH|].
    symmetry. apply (flat_map_app_perm A C (fun a => f a b) (fun a => flat_map (f a) lb)).
Qed.

Theorem contig_ok : forall v, Permutation (flat_map expand_vector (contig v)) (expand_vector v).
Proof.
  induction v as [|[n|rs] v IH].
  - reflexivity.
  - cbn [contig expand_vector]. rewrite flat_map_map_cons. cbn [expand_vector].
    assert (E : flat_map (fun w => map (cons (Txt n)) (expand_vector w)) (contig v)
                = map (cons (Txt n)) (flat_map expand_vector (contig v))).
    { generalize (contig v). intros l0. induction l0 as [|w l IHl]; [reflexivity|]. cbn [flat_map]. rewrite map_app, IHl. reflexivity. }
    etransitivity; [|apply Permutation_map; exact IH]. rewrite <- E. reflexivity.
  - rewrite expand_idx. cbn [contig].
    induction rs as [|p rs IHr]; [reflexivity|]. cbn [flat_map]. rewrite flat_map_app, ints_cons, flat_map_app.
    apply Permutation_app; [|exact IHr]. rewrite flat_map_map_cons.
    etransitivity.
    + apply (flat_map_perm_ext _ _ _ (fun w => flat_map (fun i => map (cons (Idx [(i, i)])) (expand_vector w))
        (run (fst p) (snd p)))). intros w. rewrite expand_idx. unfold ints. cbn [flat_map]. rewrite app_nil_r. reflexivity.
    + etransitivity; [apply (flat_map_product _ _ _ (fun i w => map (cons (Idx [(i, i)])) (expand_vector w)))|]. apply flat_map_perm_ext. intros i.
      assert (E : flat_map (fun w => map (cons (Idx [(i, i)])) (expand_vector w)) (contig v)
                  = map (cons (Idx [(i, i)])) (flat_map expand_vector (contig v))).
      { generalize (contig v). intros l0. induction l0 as [|w l IHl]; [reflexivity|]. cbn [flat_map]. rewrite map_app, IHl. reflexivity. }
      etransitivity; [|apply Permutation_map; exact IH]. rewrite <- E. reflexivity.
Qed.

(* --- signatures ------------------------------------------------------------------------------------- *)

(* Texts and indices alternate and no text has a star. *)
Fixpoint plain (v : vec) : Prop :=
  match v with
  | [] => True
  | Txt n :: r => n <> EmptyString /\ ~ In "*"%char (list_ascii_of_string n)
                  /\ match r with Txt _ :: _ => False | _ => True end /\ plain r
  | Idx _ :: r => plain r
  end.

Lemma star_split : forall (a b x y : chars), ~ In "*"%char a -> ~ In "*"%char b ->
  (match x with [] => True | c :: _ => c = "*"%char end) ->
  (match y with [] => True | c :: _ => c = "*"%char end) ->
  a ++ x = b ++ y -> a = b /\ x = y.
Proof.
  induction a as [|c a IH]; intros [|d b] x y A B X Y E; cbn in *.
  - auto.
  - subst x. destruct B. left. exact X.
  - subst y. destruct A. left. exact Y.
  - injection E as -> E. destruct (IH b x y) as [-> ->]; auto.
Qed.

Lemma plain_sig_head : forall r, (match r with Txt _ :: _ => False | _ => True end) ->
  match signature r with [] => True | c :: _ => c = "*"%char end.
Proof. intros [|[n|rs] r] H; [exact I|destruct H|reflexivity]. Qed.

Theorem plain_alike : forall v w, plain v -> plain w -> signature v = signature w -> same_shape v w.
Proof.
  induction v as [|[n|rs] v IH]; intros [|[m|ss] w] P Q E.
  - exact I.
  - exfalso. destruct Q as [N _]. cbn in E. destruct m; [congruence|discriminate].
  - discriminate.
  - exfalso. destruct P as [N _]. cbn in E. destruct n; [congruence|discriminate].
  - destruct P as [N1 [S1 [H1 P]]]. destruct Q as [N2 [S2 [H2 Q]]]. cbn [signature] in E.
    destruct (star_split _ _ _ _ S1 S2 (plain_sig_head _ H1) (plain_sig_head _ H2) E) as [E1 E2].
    split; [|apply IH; assumption].
    rewrite <- (string_of_list_ascii_of_string n), <- (string_of_list_ascii_of_string m). congruence.
  - exfalso. destruct P as [N [S _]]. cbn in E. destruct n as [|c n]; [congruence|]. cbn in *. injection E as -> _. auto.
  - discriminate.
  - exfalso. destruct Q as [N [S _]]. cbn in E. destruct m as [|c m]; [congruence|]. cbn in *. injection E as <- _. auto.
  - cbn in *. injection E as E. apply IH; assumption.
Qed.
