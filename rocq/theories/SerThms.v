(* Loading what was saved gives the same graph. *)
From Coq Require Import ZArith List Ascii Bool Lia.
From Verif Require Import SerModel SerSpec SerNum.
Import ListNotations.
Open Scope Z_scope.

(* ---- the writer's state only grows ---- *)
Definition prefix {A} (l l' : list A) : Prop := exists e, l' = l ++ e.
Lemma prefix_refl {A} (l : list A) : prefix l l.
Proof. exists []. rewrite app_nil_r. reflexivity. Qed.
Lemma prefix_trans {A} (a b c : list A) : prefix a b -> prefix b c -> prefix a c.
Proof. intros [x ->] [y ->]. exists (x ++ y). rewrite app_assoc. reflexivity. Qed.
Lemma prefix_nth {A} (a b : list A) i x : prefix a b -> nth_error a i = Some x -> nth_error b i = Some x.
Proof.
  intros [e ->] H. rewrite nth_error_app1; [exact H|]. apply nth_error_Some. rewrite H. discriminate.
Qed.

Definition ext (w w' : wstate) : Prop :=
  incl (w_seen w) (w_seen w') /\ prefix (w_strs w) (w_strs w') /\ prefix (w_bools w) (w_bools w')
  /\ prefix (w_bexprs w) (w_bexprs w').
Lemma ext_refl w : ext w w.
Proof. split; [apply incl_refl|]. split; [apply prefix_refl|]. split; apply prefix_refl. Qed.
Lemma ext_trans a b c : ext a b -> ext b c -> ext a c.
Proof.
  intros (A1 & A2 & A3 & A4) (B1 & B2 & B3 & B4).
  split; [eapply incl_tran; eauto|]. split; [eapply prefix_trans; eauto|]. split; eapply prefix_trans; eauto.
Qed.

(* Leaves change the tables only. *)
Definition ext0 (w w' : wstate) : Prop := w_seen w' = w_seen w /\ ext w w'.
Lemma ext0_refl w : ext0 w w.
Proof. split; [reflexivity|apply ext_refl]. Qed.
Lemma ext0_trans a b c : ext0 a b -> ext0 b c -> ext0 a c.
Proof. intros [A1 A2] [B1 B2]. split; [congruence|eapply ext_trans; eauto]. Qed.

Lemma Zeqb_eq a b : Z.eqb a b = true -> a = b.
Proof. apply Z.eqb_eq. Qed.

Lemma put_string_spec s w t w' : put_string s w = (t, w') ->
  exists i, t = put_int (Z.of_nat i) /\ nth_error (w_strs w') i = Some (true, s) /\ ext0 w w'.
Proof.
  unfold put_string. destruct (find_insert entry_eqb (true, s) (w_strs w)) as [i l] eqn:E.
  intros H. injection H as <- <-. exists i. split; [reflexivity|]. cbn.
  apply (find_insert_spec _ entry_eqb_eq) in E. destruct E as [E1 E2]. split; [exact E1|].
  split; [reflexivity|]. split; [apply incl_refl|]. split; [exact E2|]. split; apply prefix_refl.
Qed.
Lemma put_arbi_spec z w t w' : put_arbi z w = (t, w') ->
  exists i, t = put_int (Z.of_nat i) /\ nth_error (w_strs w') i = Some (false, show_int z) /\ ext0 w w'.
Proof.
  unfold put_arbi. destruct (find_insert entry_eqb (false, show_int z) (w_strs w)) as [i l] eqn:E.
  intros H. injection H as <- <-. exists i. split; [reflexivity|]. cbn.
  apply (find_insert_spec _ entry_eqb_eq) in E. destruct E as [E1 E2]. split; [exact E1|].
  split; [reflexivity|]. split; [apply incl_refl|]. split; [exact E2|]. split; apply prefix_refl.
Qed.
Lemma bool_idx_spec f w i w' : bool_idx f w = (i, w') ->
  nth_error (w_bools w') i = Some f /\ ext0 w w'.
Proof.
  unfold bool_idx. destruct (find_insert Z.eqb f (w_bools w)) as [j l] eqn:E.
  intros H. injection H as <- <-. cbn.
  apply (find_insert_spec _ Zeqb_eq) in E. destruct E as [E1 E2]. split; [exact E1|].
  split; [reflexivity|]. split; [apply incl_refl|]. split; [apply prefix_refl|]. split; [exact E2|]. apply prefix_refl.
Qed.
Lemma put_formula_spec f w t w' : put_formula f w = (t, w') ->
  exists i, t = put_int (Z.of_nat i) /\ nth_error (w_bools w') i = Some f /\ ext0 w w'.
Proof.
  unfold put_formula. destruct (bool_idx f w) as [i w1] eqn:E. intros H. injection H as <- <-.
  exists i. split; [reflexivity|]. apply bool_idx_spec. exact E.
Qed.
Lemma put_bexpr_spec f w t w' : put_bexpr f w = (t, w') ->
  exists i, t = put_int (Z.of_nat i) /\ nth_error (w_bexprs w') i = Some f /\ ext0 w w'.
Proof.
  unfold put_bexpr. destruct (find_insert Z.eqb f (w_bexprs w)) as [i l] eqn:E.
  intros H. injection H as <- <-. exists i. split; [reflexivity|]. cbn.
  apply (find_insert_spec _ Zeqb_eq) in E. destruct E as [E1 E2]. split; [exact E1|].
  split; [reflexivity|]. split; [apply incl_refl|]. split; [apply prefix_refl|]. split; [apply prefix_refl|exact E2].
Qed.
Lemma put_bits_ext fs : forall w t w', put_bits fs w = (t, w') -> ext0 w w'.
Proof.
  induction fs as [|f r IH]; intros w t w' H; cbn [put_bits] in H.
  - injection H as <- <-. apply ext0_refl.
  - destruct (bool_idx f w) as [i w1] eqn:E1. destruct (put_bits r w1) as [t2 w2] eqn:E2.
    injection H as <- <-. apply bool_idx_spec in E1. eapply ext0_trans; [apply E1|eauto].
Qed.

Lemma write_leaf_ext n w t w' : write_leaf n w = Some (t, w') -> ext0 w w'.
Proof.
  destruct n; cbn [write_leaf]; intros H; try discriminate.
  - injection H as <- <-. apply ext0_refl.
  - destruct (put_arbi z w) as [t1 w1] eqn:E. injection H as <- <-.
    apply put_arbi_spec in E. destruct E as (i & _ & _ & X). exact X.
  - destruct (put_string s w) as [t1 w1] eqn:E. injection H as <- <-.
    apply put_string_spec in E. destruct E as (i & _ & _ & X). exact X.
  - destruct (put_formula f w) as [t1 w1] eqn:E. injection H as <- <-.
    apply put_formula_spec in E. destruct E as (i & _ & _ & X). exact X.
  - destruct (put_bexpr e w) as [t1 w1] eqn:E. injection H as <- <-.
    apply put_bexpr_spec in E. destruct E as (i & _ & _ & X). exact X.
  - unfold put_bv in H. destruct (put_bits fs w) as [t1 w1] eqn:E. injection H as <- <-.
    apply put_bits_ext in E. exact E.
  - destruct (put_string name w) as [t1 w1] eqn:E. injection H as <- <-.
    apply put_string_spec in E. destruct E as (i & _ & _ & X). exact X.
  - injection H as <- <-. apply ext0_refl.
  - injection H as <- <-. apply ext0_refl.
  - injection H as <- <-. apply ext0_refl.
Qed.

(* ---- reading a leaf ---- *)
Section Round.
Variables (h : ptr -> option node) (refs : Z -> option ptr).
Variables (B E : Z -> Z -> Prop) (tb : tables).
Hypothesis B_inj : forall f g f' g', B f f' -> B g g' -> f' = g' -> f = g.
Hypothesis streams : forall s, In s std_streams -> In s (t_streams tb).

(* The tables loaded are those of the writer. *)
Definition good_tables (w : wstate) : Prop :=
  (forall i e, nth_error (w_strs w) i = Some e -> nth_error (t_strs tb) i = Some (snd e))
  /\ (forall i f, nth_error (w_bools w) i = Some f -> exists f', nth_error (t_bools tb) i = Some f' /\ B f f')
  /\ (forall i f, nth_error (w_bexprs w) i = Some f -> exists f', nth_error (t_bexprs tb) i = Some f' /\ E f f').
Lemma good_tables_ext w w' : ext w w' -> good_tables w' -> good_tables w.
Proof.
  intros (_ & A2 & A3 & A4) (T1 & T2 & T3).
  split; [|split]; intros i e He.
  - apply T1. eapply prefix_nth; eauto.
  - apply T2. eapply prefix_nth; eauto.
  - apply T3. eapply prefix_nth; eauto.
Qed.

Lemma get_string_put i s (w : wstate) (k : bool) rest : good_tables w -> nows rest ->
  nth_error (w_strs w) i = Some (k, s) ->
  get_string tb (put_int (Z.of_nat i) ++ rest) = Some (s, rest).
Proof.
  intros (T & _) Hr Hi. unfold get_string. rewrite get_int_put by exact Hr.
  rewrite at_idx_nth, (T _ _ Hi). reflexivity.
Qed.

Lemma text_int_show z : text_int (show_int z) = Some z.
Proof.
  unfold text_int.
  assert (G : scan_int (show_int z) = Some (z, [])); [|rewrite G; reflexivity].
  unfold show_int. destruct (Z.ltb_spec z 0) as [L|L].
  - unfold scan_int. change (skip_ws ("-"%char :: show_num 10 (- z))) with ("-"%char :: show_num 10 (- z)).
    cbv beta iota. destruct (show_num_spec 10 (- z) ltac:(lia) ltac:(lia)) as (d & ds & Hd & Es & R).
    specialize (R [] ltac:(discriminate)). rewrite app_nil_r in R. rewrite Es in *. unfold scan_num.
    rewrite digit_of_chr by lia. rewrite R. rewrite Z.opp_involutive. reflexivity.
  - destruct (show_num_spec 10 z ltac:(lia) ltac:(lia)) as (d & ds & Hd & Es & R).
    specialize (R [] ltac:(discriminate)). rewrite app_nil_r in R. rewrite Es in *.
    rewrite scan_int_digit by (apply dec_cases; lia). unfold scan_num.
    rewrite digit_of_chr by lia. rewrite R. reflexivity.
Qed.

Lemma put_bits_stop fs w t w' rest : put_bits fs w = (t, w') -> stop (t ++ rest).
Proof.
  destruct fs as [|f r]; cbn [put_bits]; intros H.
  - injection H as <- <-. apply nl_stop.
  - destruct (bool_idx f w) as [i w1]. destruct (put_bits r w1) as [t2 w2]. injection H as <- <-.
    exists " "%char. eexists. split; [reflexivity|reflexivity].
Qed.

Lemma get_bits_put fs : forall w t w' rest, put_bits fs w = (t, w') -> good_tables w' ->
  exists fs', get_bits tb (length fs) (t ++ rest) = Some (fs', nl :: rest) /\ Forall2 B fs fs'.
Proof.
  induction fs as [|f r IH]; intros w t w' rest H T; cbn [put_bits] in H.
  - injection H as <- <-. exists []. split; [reflexivity|constructor].
  - destruct (bool_idx f w) as [i w1] eqn:E1. destruct (put_bits r w1) as [t2 w2] eqn:E2.
    injection H as <- <-. cbn [length get_bits app].
    rewrite scan_int_ws by reflexivity. rewrite scan_int_ws by reflexivity.
    rewrite <- app_assoc. rewrite scan_int_show by (eapply put_bits_stop; eauto).
    rewrite at_idx_nth.
    assert (T1 : good_tables w1). { eapply good_tables_ext; [|exact T]. apply (put_bits_ext _ _ _ _ E2). }
    destruct (bool_idx_spec _ _ _ _ E1) as [N _].
    destruct (proj1 (proj2 T1) _ _ N) as (f' & Nf & Bf). rewrite Nf.
    destruct (IH _ _ _ rest E2 T) as (fs' & G & F). rewrite G. exists (f' :: fs').
    split; [reflexivity|constructor; assumption].
Qed.

Lemma trim_id fs fs' : Forall2 B fs fs' -> faithful (NBv fs) -> trim fs' = fs'.
Proof.
  intros F. destruct F as [|a a' l l' Ha F]; [reflexivity|]. destruct F as [|b b' r r' Hb F]; [reflexivity|].
  cbn. intros N. destruct (Z.eqb_spec a' b') as [X|X]; [|reflexivity].
  exfalso. apply N. eapply B_inj; eauto.
Qed.

Definition same_but_caches (s s' : session) : Prop :=
  s_heap s' = s_heap s /\ s_next s' = s_next s /\ s_refs s' = s_refs s /\ s_nrefs s' = s_nrefs s.
Lemma same_refl s : same_but_caches s s.
Proof. repeat split. Qed.

Lemma existsb_in s l : In s l -> existsb (chars_eqb s) l = true.
Proof. intros H. apply existsb_exists. exists s. split; [exact H|apply chars_eqb_refl]. Qed.

Lemma read_leaf_write n w t w' rest ses : write_leaf n w = Some (t, w') -> good_tables w' ->
  savable n -> faithful n -> nows rest ->
  exists c t' m ses', t = c :: nl :: t' /\ Ascii.eqb c "A" = false /\ Ascii.eqb c "C" = false
    /\ Ascii.eqb c "R" = false /\ is_space c = false
    /\ read_leaf tb c (t' ++ rest) ses = Some (m, rest, ses')
    /\ (forall R V, node_rel R V B E n m) /\ same_but_caches ses ses'
    /\ (forall r, m <> NRef r).
Proof.
  intros W T Sv Ff Hr. destruct n; cbn [write_leaf] in W; try discriminate.
  - injection W as <- <-. eexists _, _, _, _. split; [reflexivity|]. repeat (split; [reflexivity|]).
    split; [constructor|]. split; [apply same_refl|discriminate].
  - destruct (put_arbi z w) as [t1 w1] eqn:Ep. injection W as <- <-.
    apply put_arbi_spec in Ep. destruct Ep as (i & -> & N & _).
    eexists _, _, _, _. split; [reflexivity|]. repeat (split; [reflexivity|]). split.
    { unfold read_leaf. cbn [text_of_tag]. unfold get_arbi. erewrite get_string_put by eauto.
      rewrite text_int_show. reflexivity. }
    split; [constructor|]. split; [apply same_refl|discriminate].
  - destruct (put_string s w) as [t1 w1] eqn:Ep. injection W as <- <-.
    apply put_string_spec in Ep. destruct Ep as (i & -> & N & _).
    destruct Ff as [Nv _].
    exists (text_tag k), (put_int (Z.of_nat i)), (NText k s), ses. split; [reflexivity|].
    split; [destruct k; reflexivity|]. split; [destruct k; reflexivity|]. split; [destruct k; reflexivity|].
    split; [destruct k; reflexivity|]. split.
    { assert (X : text_of_tag (text_tag k) = Some k) by (destruct k; try reflexivity; congruence).
      unfold read_leaf. rewrite X. erewrite get_string_put by eauto. reflexivity. }
    split; [constructor|]. split; [apply same_refl|discriminate].
  - destruct (put_formula f w) as [t1 w1] eqn:Ep. injection W as <- <-.
    apply put_formula_spec in Ep. destruct Ep as (i & -> & N & _).
    destruct (proj1 (proj2 T) _ _ N) as (f' & Nf & Bf).
    eexists _, _, _, _. split; [reflexivity|]. repeat (split; [reflexivity|]). split.
    { unfold read_leaf. cbn [text_of_tag]. unfold get_formula. rewrite get_int_put by exact Hr.
      rewrite at_idx_nth, Nf. reflexivity. }
    split; [constructor; exact Bf|]. split; [apply same_refl|discriminate].
  - destruct (put_bexpr e w) as [t1 w1] eqn:Ep. injection W as <- <-.
    apply put_bexpr_spec in Ep. destruct Ep as (i & -> & N & _).
    destruct (proj2 (proj2 T) _ _ N) as (f' & Nf & Bf).
    eexists _, _, _, _. split; [reflexivity|]. repeat (split; [reflexivity|]). split.
    { unfold read_leaf. cbn [text_of_tag]. unfold get_bexpr. rewrite get_int_put by exact Hr.
      rewrite at_idx_nth, Nf. reflexivity. }
    split; [constructor; exact Bf|]. split; [apply same_refl|discriminate].
  - unfold put_bv in W. destruct (put_bits fs w) as [t1 w1] eqn:Ep. injection W as <- <-.
    destruct (get_bits_put _ _ _ _ rest Ep T) as (fs' & G & F).
    exists "O"%char, (put_int bv_class ++ show_int (Z.of_nat (length fs)) ++ t1), (NBv fs'), ses.
    split; [reflexivity|]. repeat (split; [reflexivity|]). split.
    { unfold read_leaf. cbn [text_of_tag]. rewrite <- app_assoc, <- app_assoc.
      rewrite get_int_put.
      2:{ assert (X := put_int_nows (Z.of_nat (length fs)) []). unfold put_int in X. rewrite app_nil_r in X.
          unfold show_int. destruct (Z.ltb_spec (Z.of_nat (length fs)) 0); [lia|].
          destruct (show_num_spec 10 (Z.of_nat (length fs)) ltac:(lia) ltac:(lia)) as (d & ds & Hd & Es & _).
          rewrite Es. cbn [app]. apply nows_cons. assert (I := dec_cases d Hd). cbn in I.
          repeat (destruct I as [<-|I]; [reflexivity|]). destruct I. }
      rewrite Z.eqb_refl. unfold get_bv. rewrite scan_int_show by (eapply put_bits_stop; eauto).
      rewrite Nat2Z.id, G. cbn [tl]. rewrite (trim_id _ _ F Ff). reflexivity. }
    split; [constructor; exact F|]. split; [apply same_refl|discriminate].
  - destruct (put_string name w) as [t1 w1] eqn:Ep. injection W as <- <-.
    apply put_string_spec in Ep. destruct Ep as (i & -> & N & _).
    eexists _, _, _, _. split; [reflexivity|]. repeat (split; [reflexivity|]). split.
    { unfold read_leaf. cbn [text_of_tag]. erewrite get_string_put by eauto.
      rewrite existsb_in by (apply streams; exact Sv). reflexivity. }
    split; [constructor|]. split; [apply same_refl|discriminate].
  - injection W as <- <-. eexists _, _, _, _. split; [reflexivity|]. repeat (split; [reflexivity|]).
    split; [constructor|]. split; [repeat split|discriminate].
  - injection W as <- <-. eexists _, _, _, _. split; [reflexivity|]. repeat (split; [reflexivity|]). split.
    { unfold read_leaf. cbn [text_of_tag]. rewrite get_int_put by exact Hr. reflexivity. }
    split; [constructor|]. split; [apply same_refl|discriminate].
  - injection W as <- <-. eexists _, _, _, _. split; [reflexivity|]. repeat (split; [reflexivity|]). split.
    { unfold read_leaf. cbn [text_of_tag]. rewrite get_int_put by exact Hr. reflexivity. }
    split; [constructor|]. split; [apply same_refl|discriminate].
Qed.
End Round.
