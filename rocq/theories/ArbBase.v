(** Arbitrary precision integers: representation, addition, subtraction,
    negation, absolute value and comparison. *)
From Coq Require Import ZArith Bool List Lia.
From Verif Require Import ArbModel.
Import ListNotations.
Open Scope Z_scope.

Definition word (w : Z) : Prop := - HB <= w < HB.
(** A legal representation: at least one word, all words 64-bit. *)
Definition ok (x : arbi) : Prop := x <> [] /\ Forall word x.
(** No redundant sign word on top. *)
Fixpoint trimmed (x : arbi) : Prop :=
  match x with
  | [] => False
  | [_] => True
  | [w; t] => t <> (if w <? 0 then -1 else 0)
  | _ :: r => trimmed r
  end.
Definition canon (x : arbi) : Prop := ok x /\ trimmed x.

Definition Bn (n : nat) : Z := B ^ Z.of_nat n.
Lemma Bn_0 : Bn 0 = 1. Proof. reflexivity. Qed.
Lemma Bn_S n : Bn (S n) = B * Bn n.
Proof. unfold Bn. rewrite Nat2Z.inj_succ, Z.pow_succ_r; lia. Qed.
Lemma Bn_pos n : 0 < Bn n.
Proof. unfold Bn. apply Z.pow_pos_nonneg; unfold B; lia. Qed.
Lemma Bn_le m n : (m <= n)%nat -> Bn m <= Bn n.
Proof. intros. unfold Bn. apply Z.pow_le_mono_r; unfold B; lia. Qed.
Lemma Bn_add m n : Bn (m + n) = Bn m * Bn n.
Proof. unfold Bn. rewrite Nat2Z.inj_add, Z.pow_add_r; lia. Qed.
Lemma B_HB : B = 2 * HB. Proof. reflexivity. Qed.
Global Opaque Bn.

Arguments Z.mul : simpl never.
Arguments Z.add : simpl never.
Arguments Z.opp : simpl never.
Arguments Z.sub : simpl never.
Arguments Z.pow : simpl never.
Ltac bz := unfold word, MinWord, MaxWord, H32, B, HB in *; lia.

Lemma wrap_word z : word (wrap z).
Proof. unfold wrap, word. pose proof (Z.mod_pos_bound (z + HB) B ltac:(bz)). bz. Qed.
Lemma wrap_eq z : exists k, wrap z = z + k * B.
Proof. exists (- ((z + HB) / B)). unfold wrap. pose proof (Z.div_mod (z + HB) B ltac:(bz)). lia. Qed.
Lemma wrap_id z : word z -> wrap z = z.
Proof. intros Hw. unfold wrap. rewrite Z.mod_small; bz. Qed.
Lemma wrap_unique z w k : word w -> z = w + k * B -> wrap z = w.
Proof. intros Hw ->. unfold wrap. replace (w + k * B + HB) with (w + HB + k * B) by lia.
  rewrite Z.mod_add by bz. rewrite Z.mod_small; bz. Qed.
Lemma uw_word w : word w -> uw w = w + (if w <? 0 then B else 0).
Proof. intros Hw. unfold uw. destruct (Z.ltb_spec w 0).
  - rewrite <- (Z.mod_add w 1 B) by bz. rewrite Z.mod_small; bz.
  - rewrite Z.mod_small; bz. Qed.
Lemma uw_range w : 0 <= uw w < B.
Proof. unfold uw. apply Z.mod_pos_bound. bz. Qed.
Lemma uw_inj a b : word a -> word b -> uw a = uw b -> a = b.
Proof. intros Ha Hb. rewrite !uw_word by assumption. destruct (Z.ltb_spec a 0), (Z.ltb_spec b 0); bz. Qed.
Lemma wrap_uw z : wrap (uw z) = wrap z.
Proof. unfold wrap, uw. rewrite Zplus_mod_idemp_l. reflexivity. Qed.
Lemma uw_wrap z : uw (wrap z) = uw z.
Proof. destruct (wrap_eq z) as [k ->]. unfold uw. apply Z.mod_add. bz. Qed.
Lemma word_ext w : word (ext_of w).
Proof. unfold ext_of. destruct (w <? 0); bz. Qed.
Global Opaque wrap uw.

Lemma val_cons w r : r <> [] -> val (w :: r) = uw w + B * val r.
Proof. destruct r; [congruence | reflexivity]. Qed.
Lemma top_cons w r : r <> [] -> top (w :: r) = top r.
Proof. destruct r; [congruence | reflexivity]. Qed.
Lemma ok_cons w r : r <> [] -> ok (w :: r) <-> word w /\ ok r.
Proof. intros. unfold ok. split.
  - intros [_ Hf]. inversion Hf; auto.
  - intros [? [_ ?]]. split; [congruence | constructor; auto]. Qed.
Lemma ok_one w : ok [w] <-> word w.
Proof. unfold ok. split.
  - intros [_ Hf]. inversion Hf; auto.
  - intros Hw. split; [congruence | repeat constructor; apply Hw]. Qed.
Lemma canon_one w : word w -> canon [w].
Proof. intros. split; [apply ok_one; auto | exact I]. Qed.
Lemma trimmed_cons w a b r : trimmed (w :: a :: b :: r) = trimmed (a :: b :: r).
Proof. reflexivity. Qed.
Lemma top_word x : ok x -> word (top x).
Proof.
  induction x as [|w r IH]; intros [Hne Hf]; [congruence|].
  destruct r as [|a r]; [inversion Hf; auto|].
  rewrite top_cons by congruence. apply IH. inversion Hf; split; [congruence|auto]. Qed.

Lemma list_ind2 (P : arbi -> Prop) :
  (forall w, P [w]) -> (forall w r, r <> [] -> P r -> P (w :: r)) -> forall x, x <> [] -> P x.
Proof. intros H1 H2 x. induction x as [|w r IH]; [congruence|]. intros _.
  destruct r as [|a r]; [apply H1 | apply H2; [congruence | apply IH; congruence]]. Qed.
Ltac ind2 x Hne := revert Hne; pattern x; apply list_ind2; clear x.

(** The range of a representation of n words. *)
Lemma val_range x : ok x -> - HB * Bn (length x - 1) <= val x < HB * Bn (length x - 1).
Proof.
  intros [Hne Hf]. revert Hf. pattern x. apply list_ind2; [| | exact Hne]; clear x Hne.
  - intros w Hf. apply Forall_cons_iff in Hf; destruct Hf as [Hw Hr]. simpl. rewrite Bn_0. bz.
  - intros w r Hne IH Hf. apply Forall_cons_iff in Hf; destruct Hf as [Hw Hr]. specialize (IH Hr).
    rewrite val_cons by auto. pose proof (uw_range w).
    replace (length (w :: r) - 1)%nat with (S (length r - 1)) by (destruct r; simpl; [congruence|lia]).
    rewrite Bn_S. set (P := Bn _) in *. assert (0 < P) by apply Bn_pos. nia.
Qed.
(** A trimmed representation of more than one word is outside the range of
    shorter ones. *)
Lemma val_trimmed x : ok x -> trimmed x -> (2 <= length x)%nat ->
  val x < - HB * Bn (length x - 2) \/ HB * Bn (length x - 2) <= val x.
Proof.
  intros [Hne Hf]. revert Hf. pattern x. apply list_ind2; [| | exact Hne]; clear x Hne.
  - simpl; intros; lia.
  - intros w r Hne IH Hf Ht Hl. apply Forall_cons_iff in Hf; destruct Hf as [Hw Hr].
    destruct r as [|a [|b r]]; [congruence | |].
    + simpl in Ht |- *. rewrite Bn_0. rewrite uw_word by auto. apply Forall_cons_iff in Hr; destruct Hr as [Hwa _].
      destruct (Z.ltb_spec w 0); bz.
    + rewrite val_cons by auto. specialize (IH Hr Ht ltac:(simpl; lia)). pose proof (uw_range w).
      replace (length (w :: a :: b :: r) - 2)%nat with (S (length (a :: b :: r) - 2)) by (simpl; lia).
      rewrite Bn_S. set (P := Bn _) in *. assert (0 < P) by apply Bn_pos. set (v := val _) in *.
      destruct IH; [left|right]; nia.
Qed.

Lemma val_inj_len x y : ok x -> ok y -> length x = length y -> val x = val y -> x = y.
Proof.
  revert y. induction x as [|w r IH]; intros y Hx Hy Hl Hv; [destruct Hx; congruence|].
  destruct y as [|w' r']; [discriminate|].
  destruct r as [|a r], r' as [|a' r']; try discriminate.
  - simpl in Hv. congruence.
  - rewrite (val_cons w (a :: r)), (val_cons w' (a' :: r')) in Hv by congruence. apply ok_cons in Hx; [|congruence]. apply ok_cons in Hy; [|congruence].
    pose proof (uw_range w). pose proof (uw_range w').
    assert (val (a :: r) = val (a' :: r')) by (set (v := val _) in *; set (v' := val (a' :: _)) in *; bz).
    f_equal; [apply uw_inj; try tauto; lia | apply IH; try tauto; simpl in *; lia]. Qed.
Lemma val_len x y : canon x -> canon y -> val x = val y -> (length x <= length y)%nat.
Proof.
  intros [Hx Tx] [Hy Ty] Hv. destruct (le_lt_dec (length x) (length y)) as [|Hl]; [assumption|exfalso].
  assert (1 <= length y)%nat by (destruct y; [destruct Hy; congruence | simpl; lia]).
  pose proof (val_trimmed x Hx Tx ltac:(lia)). pose proof (val_range y Hy).
  pose proof (Bn_le (length y - 1) (length x - 2) ltac:(lia)). rewrite Hv in *. bz. Qed.
(** Equal integers have equal canonical representations. *)
Lemma canon_inj x y : canon x -> canon y -> val x = val y -> x = y.
Proof. intros Hx Hy Hv. apply val_inj_len; [apply Hx | apply Hy | | assumption].
  pose proof (val_len x y Hx Hy Hv). pose proof (val_len y x Hy Hx (eq_sym Hv)). lia. Qed.

Lemma val_sign x : ok x -> (top x <? 0) = (val x <? 0).
Proof.
  intros [Hne Hf]. revert Hf. pattern x. apply list_ind2; [| | exact Hne]; clear x Hne.
  - reflexivity.
  - intros w r Hne IH Hf. apply Forall_cons_iff in Hf; destruct Hf as [Hw Hr]. rewrite top_cons, val_cons by auto. rewrite IH by auto.
    pose proof (uw_range w). destruct (Z.ltb_spec (val r) 0), (Z.ltb_spec (uw w + B * val r) 0); bz. Qed.
Lemma val_snoc x t : ok x -> val (x ++ [t]) = val x + Bn (length x) * (t + if top x <? 0 then 1 else 0).
Proof.
  intros [Hne Hf]. revert Hf. pattern x. apply list_ind2; [| | exact Hne]; clear x Hne.
  - intros w Hf. apply Forall_cons_iff in Hf; destruct Hf as [Hw Hr]. simpl. rewrite Bn_S, Bn_0, uw_word by auto. unfold top; simpl. destruct (w <? 0); lia.
  - intros w r Hne IH Hf. apply Forall_cons_iff in Hf; destruct Hf as [Hw Hr]. simpl app. rewrite !val_cons, top_cons by (destruct r; simpl; congruence).
    rewrite IH by auto. simpl length. rewrite Bn_S. lia. Qed.
Lemma ok_snoc x t : ok x -> word t -> ok (x ++ [t]).
Proof. intros [? ?] ?. split; [destruct x; simpl; congruence | apply Forall_app; auto]. Qed.
Lemma top_snoc x t : top (x ++ [t]) = t.
Proof. unfold top. apply last_last. Qed.
Lemma trimmed_snoc x t : x <> [] -> trimmed (x ++ [t]) <-> t <> ext_of (top x).
Proof.
  intros Hne. pattern x. apply list_ind2; [| | exact Hne]; clear x Hne.
  - reflexivity.
  - intros w r Hne IH. rewrite top_cons by auto. rewrite <- IH. destruct r as [|a [|b r]]; [congruence|reflexivity|reflexivity]. Qed.

(** trim *)
Lemma trim_rev_snoc l w : l <> [] -> trim_rev (l ++ [w]) =
  match trim_rev l with [t] => if t =? ext_of w then [w] else [t; w] | l' => l' ++ [w] end.
Proof.
  induction l as [|t l IH]; [congruence|]. intros _. destruct l as [|a l]; [reflexivity|].
  specialize (IH ltac:(congruence)).
  change (trim_rev ((t :: a :: l) ++ [w])) with (if t =? ext_of a then trim_rev ((a :: l) ++ [w]) else (t :: a :: l) ++ [w]).
  change (trim_rev (t :: a :: l)) with (if t =? ext_of a then trim_rev (a :: l) else t :: a :: l).
  destruct (t =? ext_of a); [exact IH | reflexivity]. Qed.
Lemma trim_cons w r : r <> [] -> trim (w :: r) =
  match trim r with [t] => if t =? ext_of w then [w] else [w; t] | r' => w :: r' end.
Proof.
  intros Hne. unfold trim. simpl rev. rewrite trim_rev_snoc.
  2:{ intros E. apply Hne. rewrite <- (rev_involutive r), E. reflexivity. }
  destruct (trim_rev (rev r)) as [|t [|b l]]; [reflexivity | simpl; destruct (t =? ext_of w); reflexivity |].
  rewrite rev_app_distr. set (l' := t :: b :: l). change (rev [w]) with [w].
  destruct (rev l') as [|u [|v m]] eqn:E; [reflexivity| |reflexivity].
  apply (f_equal (@length Z)) in E. rewrite rev_length in E. discriminate. Qed.
Lemma trim_spec x : ok x -> canon (trim x) /\ val (trim x) = val x.
Proof.
  intros [Hne Hf]. revert Hf. pattern x. apply list_ind2; [| | exact Hne]; clear x Hne.
  - intros w Hf. apply Forall_cons_iff in Hf; destruct Hf as [Hw Hr]. split; [apply canon_one; auto | reflexivity].
  - intros w r Hne IH Hf. apply Forall_cons_iff in Hf; destruct Hf as [Hw Hr]. destruct (IH Hr) as [[Ho Ht] Hv]. rewrite trim_cons by auto.
    rewrite val_cons by auto. rewrite <- Hv. destruct (trim r) as [|t [|b l]] eqn:E.
    + destruct Ho; congruence.
    + apply ok_one in Ho. simpl val. destruct (Z.eqb_spec t (ext_of w)) as [Ee|Ee].
      * split; [apply canon_one; auto|]. simpl. rewrite uw_word, Ee by auto. unfold ext_of. destruct (w <? 0); lia.
      * split; [|reflexivity]. split; [apply ok_cons; [congruence|]; split; [auto|apply ok_one; auto] | exact Ee].
    + split; [|reflexivity]. split; [apply ok_cons; [congruence|auto] | exact Ht]. Qed.
Lemma trim_canon x : canon x -> trim x = x.
Proof. intros Hc. destruct (trim_spec x) as [H1 H2]; [apply Hc|]. apply canon_inj; auto. Qed.

(** sign extension *)
Lemma sext_spec y n : ok y -> (length y <= n)%nat ->
  ok (sext y n) /\ length (sext y n) = n /\ val (sext y n) = val y.
Proof.
  intros Hy Hl. unfold sext. set (t := ext_of (top y)).
  assert (G : forall k, ok (y ++ repeat t k) /\ val (y ++ repeat t k) = val y /\ ext_of (top (y ++ repeat t k)) = t).
  { induction k as [|k (Ho & Hv & Ht)]; [rewrite app_nil_r; auto|].
    replace (repeat t (S k)) with (repeat t k ++ [t]) by (symmetry; apply (repeat_cons k t)).
    rewrite app_assoc. split; [apply ok_snoc; [auto|apply word_ext]|]. split.
    - rewrite val_snoc by auto. rewrite Hv. unfold ext_of at 1 in Ht. destruct (top (y ++ repeat t k) <? 0); match goal with |- _ + _ * ?e = _ => replace e with 0 by lia end; lia.
    - rewrite top_snoc. unfold t, ext_of. destruct (top y <? 0); reflexivity. }
  destruct (G (n - length y)%nat) as (? & ? & ?). split; [auto|]. split; [|auto].
  rewrite app_length, repeat_length. lia. Qed.

(** addition *)
Definition ovf (wx wy wz : Z) : Z :=
  if eqb (neg wx) (neg wy) && negb (eqb (neg wz) (neg wx)) then (if neg wz then 1 else -1) else 0.
Lemma add_loop_len x y c : length x = length y -> length (add_loop (combine x y) c) = length x.
Proof. revert y c. induction x; destruct y; simpl; intros; auto; try discriminate; f_equal; try (apply IHx); try lia. Qed.
Lemma carry_spec wx wy (c : bool) : word wx -> word wy ->
  let wz := wrap (wx + wy + Z.b2z c) in uw wz + B * Z.b2z (carry_of wx wy wz) = uw wx + uw wy + Z.b2z c.
Proof.
  intros Hx Hy wz. subst wz. destruct (wrap_eq (wx + wy + Z.b2z c)) as [k Hk].
  pose proof (wrap_word (wx + wy + Z.b2z c)) as Hw. set (wz := wrap _) in *. unfold carry_of, neg.
  rewrite !uw_word by assumption.
  destruct c; simpl in *; destruct (Z.ltb_spec wx 0), (Z.ltb_spec wy 0), (Z.ltb_spec wz 0); simpl; bz. Qed.
Lemma ovf_spec wx wy (c : bool) : word wx -> word wy ->
  let wz := wrap (wx + wy + Z.b2z c) in wz + B * ovf wx wy wz = wx + wy + Z.b2z c.
Proof.
  intros Hx Hy wz. subst wz. destruct (wrap_eq (wx + wy + Z.b2z c)) as [k Hk].
  pose proof (wrap_word (wx + wy + Z.b2z c)) as Hw. set (wz := wrap _) in *. unfold ovf, neg.
  destruct c; simpl in *; destruct (Z.ltb_spec wx 0), (Z.ltb_spec wy 0), (Z.ltb_spec wz 0); simpl; bz. Qed.
Lemma add_loop_spec x y c : ok x -> ok y -> length x = length y ->
  let z := add_loop (combine x y) c in
  ok z /\ val z + Bn (length x) * ovf (top x) (top y) (top z) = val x + val y + Z.b2z c.
Proof.
  intros [Hne Hf]. revert Hf y c. pattern x. apply list_ind2; [| | exact Hne]; clear x Hne.
  - intros wx Hf y c [_ Hy] Hl. destruct y as [|wy [|]]; try discriminate. apply Forall_cons_iff in Hf; destruct Hf as [Hw Hr]; apply Forall_cons_iff in Hy; destruct Hy as [Hwy _].
    simpl. split; [apply ok_one, wrap_word|]. rewrite Bn_S, Bn_0. unfold top; simpl.
    pose proof (ovf_spec wx wy c Hw Hwy). simpl in *. lia.
  - intros wx x Hne IH Hf y c Hy Hl. destruct y as [|wy y]; [discriminate|].
    assert (Hny : y <> []) by (destruct x, y; try discriminate; congruence).
    apply ok_cons in Hy; [|auto]. apply Forall_cons_iff in Hf; destruct Hf as [Hw Hr]. destruct Hy as [Hwy Hy]. simpl in Hl. injection Hl as Hl.
    cbn [combine add_loop]. set (wz := wrap _). cbv zeta. destruct (IH Hr y (carry_of wx wy wz) Hy Hl) as [Ho Hv].
    set (z := add_loop _ _) in *.
    assert (Hnz : z <> []) by apply Ho.
    split; [apply ok_cons; [auto|]; split; [apply wrap_word|auto]|].
    rewrite !top_cons by auto.
    cbn [length]. rewrite !val_cons by auto. rewrite Bn_S.
    pose proof (carry_spec wx wy c Hw Hwy) as Hc. simpl in Hc. fold wz in Hc.
    replace (B * Bn (length x) * ovf (top x) (top y) (top z)) with (B * (Bn (length x) * ovf (top x) (top y) (top z))) by lia.
    set (o := Bn _ * ovf _ _ _) in *. lia.
Qed.
Lemma add_slow_spec x y : ok x -> ok y -> canon (add_slow x y) /\ val (add_slow x y) = val x + val y.
Proof.
  assert (G : forall x y, ok x -> ok y -> (length y <= length x)%nat ->
    let y' := sext y (length x) in
    let z := add_loop (combine x y') false in
    let r := if eqb (neg (top x)) (neg (top y')) && negb (eqb (neg (top z)) (neg (top x)))
      then z ++ [if neg (top z) then 0 else -1] else trim z in
    canon r /\ val r = val x + val y).
  { clear. intros x y Hx Hy Hl. simpl. destruct (sext_spec y (length x) Hy Hl) as (Hy' & Hl' & Hv').
    set (y' := sext y (length x)) in *. destruct (add_loop_spec x y' false Hx Hy' (eq_sym Hl')) as [Hz Hv].
    pose proof (add_loop_len x y' false (eq_sym Hl')) as Hlz. set (z := add_loop _ _) in *. unfold ovf in Hv.
    simpl in Hv. destruct (_ && _).
    - split.
      + split; [apply ok_snoc; [auto|destruct (neg _); bz]|].
        apply trimmed_snoc; [apply Hz|]. unfold neg, ext_of. destruct (_ <? 0); lia.
      + rewrite val_snoc by auto. unfold neg in *. rewrite Hlz. destruct (top z <? 0); lia.
    - destruct (trim_spec z Hz). split; auto. lia. }
  intros Hx Hy. unfold add_slow. destruct (Nat.ltb_spec (length x) (length y)).
  - rewrite Z.add_comm. apply G; auto. lia.
  - apply G; auto.
Qed.
Lemma add_spec x y : ok x -> ok y -> canon (arbi__add x y) /\ val (arbi__add x y) = val x + val y.
Proof.
  intros Hx Hy. pose proof (add_slow_spec x y Hx Hy) as Hs. unfold arbi__add.
  destruct x as [|wx [|]], y as [|wy [|]]; try exact Hs.
  apply ok_one in Hx. apply ok_one in Hy.
  destruct (_ || _) eqn:E; [|exact Hs]. split; [apply canon_one, wrap_word|]. simpl.
  pose proof (ovf_spec wx wy false Hx Hy) as Ho. simpl in Ho. rewrite Z.add_0_r in Ho. unfold ovf in Ho.
  destruct (neg wx), (neg wy), (neg (wrap (wx + wy))); simpl in *; try discriminate; lia.
Qed.

(** negation, absolute value, subtraction *)
Lemma word_lnot w : word w -> word (Z.lnot w).
Proof. unfold Z.lnot. bz. Qed.
Lemma lnot_val x : ok x -> ok (map Z.lnot x) /\ val (map Z.lnot x) = - val x - 1 /\ top (map Z.lnot x) = - top x - 1.
Proof.
  intros [Hne Hf]. revert Hf. pattern x. apply list_ind2; [| | exact Hne]; clear x Hne.
  - intros w Hf. apply Forall_cons_iff in Hf; destruct Hf as [Hw Hr]. split; [apply ok_one, word_lnot; auto|]. unfold top, Z.lnot. simpl. lia.
  - intros w r Hne IH Hf. apply Forall_cons_iff in Hf; destruct Hf as [Hw Hr]. destruct (IH Hr) as (Ha & Hb & Hc).
    assert (map Z.lnot r <> []) by (destruct r; simpl; congruence).
    simpl map. split; [apply ok_cons; auto; split; [apply word_lnot|]; auto|].
    rewrite !val_cons, !top_cons by auto. split; [|auto]. rewrite !uw_word by (try apply word_lnot; auto).
    rewrite Hb. unfold Z.lnot. destruct (Z.ltb_spec w 0), (Z.ltb_spec (Z.pred (- w)) 0); lia. Qed.
Lemma neg_slow_spec x : ok x -> canon (neg_slow x) /\ val (neg_slow x) = - val x.
Proof.
  intros Hx. unfold neg_slow. destruct (lnot_val x Hx) as (Ho & Hv & Ht).
  set (t := if neg (top x) then 0 else -1).
  destruct (add_spec (map Z.lnot x ++ [t]) [1]) as [Hc He].
  - apply ok_snoc; auto. unfold t. destruct (neg _); bz.
  - apply ok_one. bz.
  - split; auto. rewrite He, val_snoc, Ht by auto. rewrite Hv. simpl val. unfold t, neg.
    destruct (Z.ltb_spec (top x) 0), (Z.ltb_spec (- top x - 1) 0); lia. Qed.
Lemma neg_spec x : ok x -> canon (arbi__neg x) /\ val (arbi__neg x) = - val x.
Proof.
  intros Hx. pose proof (neg_slow_spec x Hx) as Hs. unfold arbi__neg.
  destruct x as [|wx [|]]; try exact Hs. apply ok_one in Hx.
  destruct (negb _) eqn:E; [|exact Hs]. split; [apply canon_one, wrap_word|]. simpl.
  destruct (wrap_eq (- wx)) as [k Hk]. pose proof (wrap_word (- wx)). set (w := wrap _) in *. unfold neg in E.
  destruct (Z.ltb_spec wx 0), (Z.ltb_spec w 0); simpl in E; try discriminate; bz. Qed.
Lemma abs_spec x : canon x -> canon (arbi__abs x) /\ val (arbi__abs x) = Z.abs (val x).
Proof.
  intros Hx. unfold arbi__abs, neg. rewrite val_sign by apply Hx. destruct (Z.ltb_spec (val x) 0).
  - destruct (neg_spec x (proj1 Hx)). split; auto. lia.
  - split; auto. lia. Qed.
Lemma sub_spec x y : ok x -> ok y -> canon (arbi__sub x y) /\ val (arbi__sub x y) = val x - val y.
Proof.
  intros Hx Hy. assert (Hs : canon (arbi__add x (arbi__neg y)) /\ val (arbi__add x (arbi__neg y)) = val x - val y).
  { destruct (neg_spec y Hy) as [Hc Hv]. destruct (add_spec x (arbi__neg y) Hx (proj1 Hc)). split; auto. lia. }
  unfold arbi__sub. destruct x as [|wx [|]], y as [|wy [|]]; try exact Hs.
  apply ok_one in Hx. apply ok_one in Hy.
  destruct (_ || _) eqn:E; [|exact Hs]. split; [apply canon_one, wrap_word|]. simpl.
  destruct (wrap_eq (wx - wy)) as [k Hk]. pose proof (wrap_word (wx - wy)). set (w := wrap _) in *. unfold neg in E.
  destruct (Z.ltb_spec wx 0), (Z.ltb_spec wy 0), (Z.ltb_spec w 0); simpl in E; try discriminate; bz. Qed.

(** comparison *)
Lemma cmp_low_app xs ys a b : length xs = length ys ->
  cmp_low (xs ++ [a]) (ys ++ [b]) = match cmp_low xs ys with Eq => (uw a ?= uw b) | c => c end.
Proof.
  revert ys. induction xs as [|x xs IH]; destruct ys as [|y ys]; simpl; intros Hl; try discriminate.
  - rewrite (Z.compare_sub (uw a) (uw b)). destruct (Z.ltb_spec (uw a) (uw b)), (Z.ltb_spec (uw b) (uw a)); try lia;
    symmetry; rewrite <- Z.compare_sub; [apply Z.compare_lt_iff|apply Z.compare_gt_iff|apply Z.compare_eq_iff]; lia.
  - destruct (_ <? _); [reflexivity|]. destruct (_ <? _); [reflexivity|]. apply IH. lia. Qed.
Definition cmp_same (x y : arbi) : comparison :=
  if top x <? top y then Lt else if top y <? top x then Gt else cmp_low (tl (rev x)) (tl (rev y)).
Lemma rev_ne {A} (l : list A) : l <> [] -> exists a m, rev l = a :: m.
Proof. intros Hn. destruct (rev l) as [|a m] eqn:E; [|eauto]. exfalso; apply Hn. rewrite <- (rev_involutive l), E. reflexivity. Qed.
Lemma cmp_same_spec x y : ok x -> ok y -> length x = length y -> cmp_same x y = (val x ?= val y).
Proof.
  intros [Hne Hf]. revert Hf y. pattern x. apply list_ind2; [| | exact Hne]; clear x Hne.
  - intros wx Hf y [_ Hy] Hl. destruct y as [|wy [|]]; try discriminate. unfold cmp_same, top; simpl.
    destruct (Z.ltb_spec wx wy), (Z.ltb_spec wy wx); symmetry; [lia|apply Z.compare_lt_iff; lia|apply Z.compare_gt_iff; lia|apply Z.compare_eq_iff; lia].
  - intros wx x Hne IH Hf y Hy Hl. destruct y as [|wy y]; [discriminate|].
    assert (Hny : y <> []) by (destruct x, y; try discriminate; congruence).
    apply ok_cons in Hy; [|auto]. apply Forall_cons_iff in Hf; destruct Hf as [Hw Hr]. destruct Hy as [Hwy Hy]. simpl in Hl. injection Hl as Hl.
    specialize (IH Hr y Hy Hl). unfold cmp_same in *. rewrite !top_cons, !val_cons by auto.
    simpl rev. destruct (rev_ne x Hne) as (a & m & Ea), (rev_ne y Hny) as (b & n & Eb).
    assert (length m = length n) by (apply (f_equal (@length Z)) in Ea, Eb; rewrite rev_length in *; simpl in *; lia).
    rewrite Ea, Eb in *. simpl tl in *. rewrite cmp_low_app by auto.
    pose proof (uw_range wx). pose proof (uw_range wy).
    assert (H4 : forall c, (val x ?= val y) = c -> match c with Lt => val x < val y | Gt => val x > val y | Eq => val x = val y end).
    { intros c <-. destruct (Z.compare_spec (val x) (val y)); lia. }
    destruct (top x <? top y); [|destruct (top y <? top x); [|destruct (cmp_low m n)]]; specialize (H4 _ (eq_sym IH)); simpl in H4.
    + symmetry; apply Z.compare_lt_iff; bz.
    + symmetry; apply Z.compare_gt_iff; bz.
    + rewrite H4. destruct (Z.compare_spec (uw wx) (uw wy)); symmetry; [apply Z.compare_eq_iff|apply Z.compare_lt_iff|apply Z.compare_gt_iff]; lia.
    + symmetry; apply Z.compare_lt_iff; bz.
    + symmetry; apply Z.compare_gt_iff; bz. Qed.
Lemma cmp_spec x y : canon x -> canon y -> Arbi_cmp x y = (val x ?= val y).
Proof.
  intros [Hx Tx] [Hy Ty]. unfold Arbi_cmp.
  assert (1 <= length y)%nat by (destruct y; [destruct Hy; congruence | simpl; lia]).
  assert (1 <= length x)%nat by (destruct x; [destruct Hx; congruence | simpl; lia]).
  pose proof (val_range x Hx). pose proof (val_range y Hy).
  destruct (Nat.ltb_spec (length y) (length x)) as [Hl|Hl]; [|destruct (Nat.ltb_spec (length x) (length y)) as [Hm|Hm]].
  - pose proof (val_trimmed x Hx Tx ltac:(lia)). pose proof (Bn_le (length y - 1) (length x - 2) ltac:(lia)).
    pose proof (Bn_pos (length y - 1)).
    rewrite val_sign by auto. destruct (Z.ltb_spec (val x) 0); symmetry; [apply Z.compare_lt_iff|apply Z.compare_gt_iff]; bz.
  - pose proof (val_trimmed y Hy Ty ltac:(lia)). pose proof (Bn_le (length x - 1) (length y - 2) ltac:(lia)).
    pose proof (Bn_pos (length x - 1)).
    rewrite Z.leb_antisym, val_sign by auto. destruct (Z.ltb_spec (val y) 0); symmetry; [apply Z.compare_gt_iff|apply Z.compare_lt_iff]; bz.
  - apply cmp_same_spec; auto. lia. Qed.
Lemma cmp0_spec x : canon x -> cmp0 x = Z.sgn (val x).
Proof.
  intros [Hx Tx]. unfold cmp0. destruct x as [|w [|a r]]; [destruct Hx; congruence| |].
  - unfold top; simpl. rewrite andb_true_r. destruct (Z.eqb_spec w 0), (Z.leb_spec 0 w); lia.
  - simpl length. rewrite andb_false_r. rewrite Z.leb_antisym, val_sign by auto.
    pose proof (val_trimmed _ Hx Tx ltac:(simpl; lia)). pose proof (Bn_pos (length (w :: a :: r) - 2)).
    destruct (Z.ltb_spec (val (w :: a :: r)) 0); cbn [negb]; set (v := val _) in *; bz. Qed.
Lemma cmpa_spec x y : canon x -> canon y -> cmpa x y = (Z.abs (val x) ?= Z.abs (val y)).
Proof. intros Hx Hy. unfold cmpa. destruct (abs_spec x Hx) as [? <-], (abs_spec y Hy) as [? <-]. apply cmp_spec; auto. Qed.
