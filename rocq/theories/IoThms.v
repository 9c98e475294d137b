(** * Printing and scanning as a whole *)

From Coq Require Import String Ascii List Bool Arith ZArith Lia.
From Verif Require Import ArbModel ArbStr InfModel IoModel IoSpec IoText.
Import ListNotations.
Open Scope list_scope.
Open Scope Z_scope.

(** ** Types *)
Lemma arity_pat s : forall dir l, printf_pat dir s = Some l -> arity dir s = length l.
Proof.
  induction s as [|c s IH]; intros dir l E.
  - destruct dir; [discriminate|]. now injection E as <-.
  - cbn [printf_pat arity] in *. destruct dir.
    + assert (M : forall k l, match printf_pat false s with Some l => Some (k :: l) | None => None end = Some l ->
                  S (arity false s) = length l).
      { intros k l' F. destruct (printf_pat false s) eqn:G; [|discriminate]. injection F as <-.
        cbn. now rewrite (IH _ _ G). }
      assert (M' : forall k l, match printf_pat true s with Some l => Some (k :: l) | None => None end = Some l ->
                  S (arity true s) = length l).
      { intros k l' F. destruct (printf_pat true s) eqn:G; [|discriminate]. injection F as <-.
        cbn. now rewrite (IH _ _ G). }
      destruct c as [[] [] [] [] [] [] [] []]; cbv beta iota zeta in *; eauto.
    + destruct (Ascii.eqb c "%"%char); eauto.
Qed.

Definition dir_of (m : mode) : bool := match m with Plain => false | Direct _ _ _ => true end.

Lemma types_printf s : forall m l args b, printf_pat (dir_of m) s = Some l ->
  map type_of args = map conv_sch l -> printf s m args b <> Bad.
Proof.
  induction s as [|c s IH]; intros m l args b E T.
  - destruct m; [|discriminate E]. discriminate.
  - cbn [printf_pat printf] in *. destruct m as [|size zfill ljust]; cbn [dir_of] in E.
    + destruct (Ascii.eqb c "%"%char).
      * now apply (IH (Direct 0 false false) l).
      * now apply (IH Plain l).
    + assert (K : forall w z j, printf_pat true s = Some l -> printf s (Direct w z j) args b <> Bad)
        by (intros; now apply (IH (Direct w z j) l)).
      assert (N : forall b', printf_pat false s = Some l -> printf s Plain args b' <> Bad)
        by (intros; now apply (IH Plain l)).
      assert (A : forall k (f : value -> option text),
        match printf_pat false s with Some l => Some (k :: l) | None => None end = Some l ->
        exists v args', args = v :: args' /\ type_of v = conv_sch k /\
          match f v with Some b => printf s Plain args' b | None => Failed end <> Bad).
      { intros k f F. destruct (printf_pat false s) eqn:G; [|discriminate]. injection F as <-.
        destruct args as [|v args']; [discriminate T|]. injection T as T1 T2.
        exists v, args'. repeat split; auto. destruct (f v); [|discriminate]. now apply (IH Plain l0). }
      assert (P : forall f,
        match printf_pat false s with Some l => Some (KInt :: l) | None => None end = Some l ->
        match args with
        | VInt z :: args => match f z with Some b => printf s Plain args b | None => Failed end
        | _ => Bad end <> Bad).
      { intros f F. destruct (A KInt (fun v => match v with VInt z => f z | _ => None end) F)
          as (v & args' & -> & T1 & H). destruct v; try discriminate T1. exact H. }
      assert (St : match printf_pat true s with Some l => Some (KStar :: l) | None => None end = Some l ->
        match args with
        | VInt z :: args => match get_int z with Some w => printf s (Direct w zfill ljust) args b | None => Big end
        | _ => Bad end <> Bad).
      { intros F. destruct (printf_pat true s) eqn:G; [|discriminate]. injection F as <-.
        destruct args as [|v args']; [discriminate T|]. injection T as T1 T2.
        destruct v; try discriminate T1. destruct (get_int z); [|discriminate].
        now apply (IH (Direct z0 zfill ljust) l0). }
      assert (Q : forall f,
        match printf_pat false s with Some l => Some (KStr :: l) | None => None end = Some l ->
        match args with
        | VStr z :: args => match f z with Some b => printf s Plain args b | None => Failed end
        | _ => Bad end <> Bad).
      { intros f F. destruct (A KStr (fun v => match v with VStr z => f z | _ => None end) F)
          as (v & args' & -> & T1 & H). destruct v; try discriminate T1. exact H. }
      assert (Q2 : forall f,
        match printf_pat false s with Some l => Some (KBool :: l) | None => None end = Some l ->
        match args with
        | VBool z :: args => match f z with Some b => printf s Plain args b | None => Failed end
        | _ => Bad end <> Bad).
      { intros f F. destruct (A KBool (fun v => match v with VBool z => f z | _ => None end) F)
          as (v & args' & -> & T1 & H). destruct v; try discriminate T1. exact H. }
      assert (Q3 : forall f,
        match printf_pat false s with Some l => Some (KStrs :: l) | None => None end = Some l ->
        match args with
        | VStrs z :: args => match f z with Some b => printf s Plain args b | None => Failed end
        | _ => Bad end <> Bad).
      { intros f F. destruct (A KStrs (fun v => match v with VStrs z => f z | _ => None end) F)
          as (v & args' & -> & T1 & H). destruct v; try discriminate T1. exact H. }
      assert (Wd : forall d z j, printf_pat true s = Some l ->
        match widen size d with Some w => printf s (Direct w z j) args b | None => Big end <> Bad).
      { intros d z j F. destruct (widen size d); [now apply K|discriminate]. }
      clear A IH T.
      destruct c as [[] [] [] [] [] [] [] []]; cbv beta iota zeta in *;
        first [apply N; exact E | apply K; exact E | apply Wd; exact E | apply P; exact E
              | apply St; exact E | apply Q; exact E | apply Q2; exact E | apply Q3; exact E].
Qed.

Lemma types_sscanf s : forall (dir : option Z) l args inp, printf_pat (if dir then true else false) s = Some l ->
  map type_of args = map conv_sch (filter is_star l) ->
  sscanf s dir args inp <> SBad /\
  forall vs, sscanf s dir args inp = Found vs ->
    map type_of vs = map conv_sch (filter (fun k => negb (is_star k)) l).
Proof.
  induction s as [|c s IH]; intros dir l args inp E T.
  - destruct dir; [discriminate E|]. injection E as <-. split; [discriminate|].
    intros vs F. injection F as <-. reflexivity.
  - cbn [printf_pat sscanf] in *. destruct dir as [size|].
    + assert (Stop : forall o : sout, o <> SBad -> (forall vs, o <> Found vs) ->
        o <> SBad /\ forall vs, o = Found vs ->
          map type_of vs = map conv_sch (filter (fun k => negb (is_star k)) l)).
      { intros o H1 H2. split; [exact H1|]. intros vs F. now elim (H2 vs). }
      assert (K : forall w, printf_pat true s = Some l ->
        sscanf s (Some w) args inp <> SBad /\ forall vs, sscanf s (Some w) args inp = Found vs ->
          map type_of vs = map conv_sch (filter (fun k => negb (is_star k)) l))
        by (intros; now apply (IH (Some w))).
      assert (Wd : forall d, printf_pat true s = Some l ->
        match widen size d with Some w => sscanf s (Some w) args inp | None => SBig end <> SBad /\
        forall vs, match widen size d with Some w => sscanf s (Some w) args inp | None => SBig end = Found vs ->
          map type_of vs = map conv_sch (filter (fun k => negb (is_star k)) l)).
      { intros d F. destruct (widen size d); [now apply K|]. apply Stop; discriminate. }
      assert (N : forall i, printf_pat false s = Some l ->
        sscanf s None args i <> SBad /\ forall vs, sscanf s None args i = Found vs ->
          map type_of vs = map conv_sch (filter (fun k => negb (is_star k)) l))
        by (intros; now apply (IH None)).
      assert (A : forall k v i, is_star k = false -> type_of v = conv_sch k ->
        match printf_pat false s with Some l => Some (k :: l) | None => None end = Some l ->
        match sscanf s None args i with Found l => Found (v :: l) | o => o end <> SBad /\
        forall vs, match sscanf s None args i with Found l => Found (v :: l) | o => o end = Found vs ->
          map type_of vs = map conv_sch (filter (fun k => negb (is_star k)) l)).
      { intros k v i S Tv F. destruct (printf_pat false s) eqn:G; [|discriminate]. injection F as <-.
        cbn [filter] in T. rewrite S in T.
        destruct (IH None l0 args i G T) as [H1 H2].
        destruct (sscanf s None args i) eqn:R; try (split; [discriminate|discriminate]); [|now elim H1].
        split; [discriminate|]. intros vs F. injection F as <-. cbn [filter map]. rewrite S. cbn [negb map].
        rewrite Tv. f_equal. now apply H2. }
      assert (P : forall base,
        match printf_pat false s with Some l => Some (KInt :: l) | None => None end = Some l ->
        match scan_num base size inp with
        | Some (z, inp) => match sscanf s None args inp with Found l => Found (VInt z :: l) | o => o end
        | None => Null end <> SBad /\
        forall vs, match scan_num base size inp with
        | Some (z, inp) => match sscanf s None args inp with Found l => Found (VInt z :: l) | o => o end
        | None => Null end = Found vs ->
          map type_of vs = map conv_sch (filter (fun k => negb (is_star k)) l)).
      { intros base F. destruct (scan_num base size inp) as [[z i]|].
        - now apply (A KInt).
        - apply Stop; discriminate. }
      assert (Q : 
        match printf_pat false s with Some l => Some (KStr :: l) | None => None end = Some l ->
        match scan_str size inp with
        | Some (z, inp) => match sscanf s None args inp with Found l => Found (VStr z :: l) | o => o end
        | None => Past end <> SBad /\
        forall vs, match scan_str size inp with
        | Some (z, inp) => match sscanf s None args inp with Found l => Found (VStr z :: l) | o => o end
        | None => Past end = Found vs ->
          map type_of vs = map conv_sch (filter (fun k => negb (is_star k)) l)).
      { intros F. destruct (scan_str size inp) as [[z i]|].
        - now apply (A KStr).
        - apply Stop; discriminate. }
      assert (St : match printf_pat true s with Some l => Some (KStar :: l) | None => None end = Some l ->
        match args with
        | VInt z :: args => match get_int z with Some w => sscanf s (Some w) args inp | None => SBig end
        | _ => SBad end <> SBad /\
        forall vs, match args with
        | VInt z :: args => match get_int z with Some w => sscanf s (Some w) args inp | None => SBig end
        | _ => SBad end = Found vs ->
          map type_of vs = map conv_sch (filter (fun k => negb (is_star k)) l)).
      { intros F. destruct (printf_pat true s) eqn:G; [|discriminate]. injection F as <-.
        cbn [filter is_star] in T.
        destruct args as [|v args']; [discriminate T|]. injection T as T1 T2.
        destruct v; try discriminate T1. destruct (get_int z).
        - cbn [filter is_star negb]. now apply (IH (Some z0)).
        - apply Stop; discriminate. }
      assert (Pc : printf_pat false s = Some l ->
        match inp with x :: inp => if x =? 37 then sscanf s None args inp else Mismatch | [] => Mismatch end <> SBad /\
        forall vs, match inp with x :: inp => if x =? 37 then sscanf s None args inp else Mismatch | [] => Mismatch end = Found vs ->
          map type_of vs = map conv_sch (filter (fun k => negb (is_star k)) l)).
      { intros F. destruct inp as [|x i]; [apply Stop; discriminate|].
        destruct (x =? 37); [now apply N|apply Stop; discriminate]. }
      assert (U : Unsupported <> SBad /\ forall vs, Unsupported = Found vs ->
          map type_of vs = map conv_sch (filter (fun k => negb (is_star k)) l))
        by (apply Stop; discriminate).
      clear A IH T Stop.
      destruct c as [[] [] [] [] [] [] [] []]; cbv beta iota zeta in *;
        first [apply N; exact E | apply K; exact E | apply Wd; exact E | apply P; exact E
              | apply St; exact E | apply Q; exact E | apply Pc; exact E | exact U].
    + destruct (Ascii.eqb c "%"%char); [now apply (IH (Some 0))|].
      destruct inp as [|x i]; [split; discriminate|].
      destruct (x =? code c); [|split; discriminate]. now apply (IH None).
Qed.

(** ** Printing *)
Lemma widen_ok a d : 0 <= a -> 0 <= d -> 10 * a + d < 2 ^ 31 -> widen a d = Some (10 * a + d).
Proof.
  intros Ha Hd H. unfold widen. destruct (Z.leb_spec (- 2 ^ 31) (10 * a + d)); [|lia].
  destruct (Z.ltb_spec (10 * a + d) (2 ^ 31)); [reflexivity|lia].
Qed.

Lemma get_int_ok z : 0 <= z < 2 ^ 31 -> get_int z = Some z.
Proof.
  intros H. unfold get_int. destruct (Z.leb_spec (- 2 ^ 63) z); [|lia].
  destruct (Z.ltb_spec z (2 ^ 63)); [|lia]. cbn [andb]. f_equal.
  rewrite Z.mod_small; lia.
Qed.

Definition grow (ds : list nat) (a : Z) : Z := fold_left (fun a d => 10 * a + Z.of_nat d) ds a.

Lemma grow_mono ds : forall a, 0 <= a -> a <= grow ds a.
Proof.
  induction ds as [|d ds IH]; intros a Ha; [cbn; lia|]. cbn.
  apply Z.le_trans with (2 := IH (10 * a + Z.of_nat d) ltac:(lia)). lia.
Qed.

Ltac ten d := do 10 (destruct d as [|d]; [reflexivity|]); lia.

Lemma digit_printf d s a zf lj args b : (d <= 9)%nat -> 0 < a \/ (1 <= d)%nat ->
  printf (String (ascii_of_nat (48 + d)) s) (Direct a zf lj) args b =
  match widen a (Z.of_nat d) with Some w => printf s (Direct w zf lj) args b | None => Big end.
Proof.
  intros Hd H. destruct d as [|d].
  - assert (E : a =? 0 = false) by (apply Z.eqb_neq; lia). cbn. rewrite E. reflexivity.
  - clear H. do 9 (destruct d as [|d]; [reflexivity|]). lia.
Qed.

Lemma digits_printf ds s zf lj args b : forall a, 0 < a -> Forall (fun d => (d <= 9)%nat) ds ->
  grow ds a < 2 ^ 31 ->
  printf (show_digits ds s) (Direct a zf lj) args b = printf s (Direct (grow ds a) zf lj) args b.
Proof.
  induction ds as [|d ds IH]; intros a Ha F G; [reflexivity|].
  apply Forall_cons_iff in F. destruct F as [Hd F]. cbn [show_digits].
  rewrite digit_printf by auto. change (grow (d :: ds) a) with (grow ds (10 * a + Z.of_nat d)) in *.
  pose proof (grow_mono ds (10 * a + Z.of_nat d) ltac:(lia)).
  rewrite widen_ok by lia. apply IH; auto; lia.
Qed.

Lemma takes_pos w args n args' : takes w args n args' -> 0 <= n.
Proof.
  destruct 1 as [|d ds args n Hd F -> H|]; [lia| |lia].
  change (0 <= grow (d :: ds) 0). apply grow_mono. lia.
Qed.

Lemma takes_printf w args n args' s zf lj b : takes w args n args' ->
  printf (show_width w s) (Direct 0 zf lj) args b = printf s (Direct n zf lj) args' b.
Proof.
  destruct 1 as [|d ds args n Hd F -> H|z args H]; [reflexivity| |].
  - cbn [show_width show_digits]. rewrite digit_printf by (auto; lia).
    change (fold_left _ (d :: ds) 0) with (grow ds (Z.of_nat d)) in *.
    pose proof (grow_mono ds (Z.of_nat d) ltac:(lia)).
    rewrite widen_ok by lia. apply digits_printf; auto. lia.
  - cbn. now rewrite get_int_ok.
Qed.

Lemma formats_printf lj zero n k v r s args b : 0 <= n -> formats lj zero n k v r ->
  exists R, printf (String (show_letter k) s) (Direct n zero lj) (v :: args) b =
      match R with Some b' => printf s Plain args b' | None => Failed end /\
    (r = None -> R = None) /\
    (forall t, r = Some t -> (length b + length t <= lim)%nat -> R = Some (b ++ t)).
Proof.
  intros Hn F. destruct F; (eexists; split; [reflexivity|]); split.
  - now apply print_b_none.
  - intros. now apply print_b_some.
  - apply print_num_none; lia.
  - intros. apply print_num_some; auto; lia.
  - apply print_num_none; lia.
  - intros. apply print_num_some; auto; lia.
  - apply print_num_none; lia.
  - intros. apply print_num_some; auto; lia.
  - apply prs_none.
  - intros. now apply prs_some.
  - apply prs_none.
  - intros. now apply prs_some.
  - intros H. destruct (fields lj zero n l) eqn:E; [discriminate|]. now apply print_list_none.
  - intros t H L. destruct (fields lj zero n l) eqn:E; [|discriminate]. injection H as <-.
    now apply print_list_some.
Qed.

Lemma dir_printf lj zero w k s args b n args' : takes w args n args' ->
  printf (show_item (Dir lj zero w k) s) Plain args b =
  printf (String (show_letter k) s) (Direct n zero lj) args' b.
Proof.
  intros T. set (R := printf (String (show_letter k) s) (Direct n zero lj) args' b).
  assert (E : printf (show_width w (String (show_letter k) s)) (Direct 0 zero lj) args b = R)
    by now apply takes_printf.
  rewrite <- E. clearbody R. clear E. destruct lj, zero; reflexivity.
Qed.

Lemma code_lit c s args b : c <> "%"%char ->
  printf (String c s) Plain args b = printf s Plain args (charappend b (code c)).
Proof. intros H. cbn [printf]. destruct (Ascii.eqb_spec c "%"%char); [contradiction|reflexivity]. Qed.

Theorem prints_printf l args o : prints l args o ->
  (o = None -> forall b, printf (show l) Plain args b = Failed) /\
  (forall t b, o = Some t -> (length b + length t <= lim)%nat ->
     printf (show l) Plain args b = Done (b ++ t)).
Proof.
  induction 1 as [|c l args o C P [IH1 IH2]|l args o P [IH1 IH2]
                 |lj zero w k l args n v args' r o T F P [IH1 IH2]].
  - split; [discriminate|]. intros t b E _. injection E as <-. now rewrite app_nil_r.
  - split.
    + intros E b. cbn [show show_item]. rewrite code_lit by auto. apply IH1.
      destruct o; [discriminate E|reflexivity].
    + intros t b E L. destruct o as [u|]; [|discriminate E]. injection E as <-. cbn [app length] in L.
      cbn [show show_item]. rewrite code_lit, charappend_fits by (auto; lia).
      rewrite (IH2 u) by (rewrite ?app_length; cbn [length]; auto; lia). now rewrite <- app_assoc.
  - split.
    + intros E b. cbn. apply IH1. destruct o; [discriminate E|reflexivity].
    + intros t b E L. destruct o as [u|]; [|discriminate E]. injection E as <-. cbn [app length] in L.
      change (printf (show (Pct :: l)) Plain args b) with (printf (show l) Plain args (charappend b 37)).
      rewrite charappend_fits by lia.
      rewrite (IH2 u) by (rewrite ?app_length; cbn [length]; auto; lia). now rewrite <- app_assoc.
  - cbn [show]. pose proof (takes_pos _ _ _ _ T) as Hn. split.
    + intros E b. rewrite (dir_printf _ _ _ _ _ _ _ _ _ T).
      destruct (formats_printf _ _ _ _ _ _ (show l) args' b Hn F) as (R & -> & R1 & R2).
      destruct r as [x|]; [|now rewrite R1].
      destruct o; [discriminate E|]. destruct R; [now apply IH1|reflexivity].
    + intros t b E L. rewrite (dir_printf _ _ _ _ _ _ _ _ _ T).
      destruct (formats_printf _ _ _ _ _ _ (show l) args' b Hn F) as (R & -> & R1 & R2).
      destruct r as [x|]; [|discriminate E]. destruct o as [u|]; [|discriminate E]. injection E as <-.
      rewrite app_length in L. rewrite (R2 x) by (auto; lia).
      rewrite (IH2 u) by (rewrite ?app_length; auto; lia). now rewrite <- app_assoc.
Qed.

(** ** Reading back *)
Lemma from_numeral base s v : 2 <= base <= 36 -> numeral base s v ->
  forall x, from_str base x s = Some (x * base ^ Z.of_nat (length s) + v).
Proof.
  intros Hb. induction 1 as [|c d s v Hd Hn IH]; intros x.
  - cbn. f_equal. lia.
  - cbn [from_str]. rewrite (digit_c2i _ _ _ Hd). destruct Hd as [Hd _].
    destruct (Z.leb_spec base d); [lia|]. rewrite IH. f_equal.
    cbn [length]. rewrite Nat2Z.inj_succ, Z.pow_succ_r by lia. ring.
Qed.

Lemma numeral_zeros base s v n : 2 <= base <= 36 -> numeral base s v -> numeral base (repeat 48 n ++ s) v.
Proof.
  intros Hb H. induction n; [exact H|]. cbn [repeat app].
  replace v with (0 * base ^ Z.of_nat (length (repeat 48 n ++ s)) + v) by lia.
  constructor; [|exact IHn]. split; lia.
Qed.

Lemma numeral_range base s v : base = 2 \/ base = 8 \/ base = 10 \/ base = 16 -> numeral base s v ->
  Forall (fun c => in_range c (base - 1) = true) s.
Proof.
  intros Hb. induction 1 as [|c d s v [Hd Hc] _ IH]; constructor; auto. unfold in_range.
  destruct (Z.ltb_spec (base - 1) 10); rewrite ?orb_true_iff, ?andb_true_iff, ?Z.leb_le; lia.
Qed.

Definition ends (ok : Z -> bool) (t : text) : Prop :=
  match t with [] => True | c :: _ => ok c = true end.

Lemma next_ends l ok args t : next l ok -> prints l args (Some t) -> ends ok t.
Proof.
  intros N P. inversion P as [|c l' args' o C P'|l' args' o P'|]; subst; cbn [next] in N.
  - exact Logic.I.
  - destruct o; [|discriminate]. match goal with H : _ = Some t |- _ => injection H as <- end. exact N.
  - destruct o; [|discriminate]. match goal with H : _ = Some t |- _ => injection H as <- end. exact N.
  - destruct N.
Qed.

Lemma span_digits max ds : Forall (fun c => in_range c max = true) ds ->
  forall size rest, Z.of_nat (length ds) <= size ->
  size = Z.of_nat (length ds) \/ ends (fun c => negb (in_range c max)) rest ->
  span max size (ds ++ rest) = (ds, rest).
Proof.
  induction 1 as [|c ds Hc _ IH]; intros size rest L E.
  - cbn [app]. destruct rest as [|c rest]; [reflexivity|]. cbn [span].
    destruct E as [-> |E]; [reflexivity|]. cbn in E. apply negb_true_iff in E. rewrite E, andb_false_r.
    reflexivity.
  - cbn [app span length] in *. destruct (Z.ltb_spec 0 size); [|lia]. rewrite Hc. cbn [andb].
    rewrite IH; [reflexivity|lia|]. destruct E; [left; lia|now right].
Qed.

Lemma stops_range base c : base = 2 \/ base = 8 \/ base = 10 \/ base = 16 ->
  stops base c = true -> negb (in_range c (base - 1)) = true.
Proof.
  unfold stops, is_digit, in_range. intros Hb H. apply andb_prop in H. destruct H as [H1 H2].
  apply negb_true_iff in H1, H2. apply negb_true_iff.
  destruct (Z.ltb_spec (base - 1) 10);
  repeat match goal with
  | H : context [?x <=? ?y] |- _ => destruct (Z.leb_spec x y); cbn [andb orb] in *
  | H : context [?x <? ?y] |- _ => destruct (Z.ltb_spec x y); cbn [andb orb] in *
  | H : context [?x =? ?y] |- _ => destruct (Z.eqb_spec x y); cbn [andb orb] in *
  | |- context [?x <=? ?y] => destruct (Z.leb_spec x y); cbn [andb orb] in *
  end; try discriminate; try reflexivity; lia.
Qed.

Lemma base_of_cases k base : base_of k = Some base -> base = 2 \/ base = 8 \/ base = 10 \/ base = 16.
Proof. destruct k; intros E; try discriminate E; injection E as <-; auto. Qed.

(** The number that a signed numeral stands for is read, whatever comes after it. *)
Lemma scan_num_ok base size (z : Z) ds rest : base = 2 \/ base = 8 \/ base = 10 \/ base = 16 ->
  ds <> [] -> numeral base ds (Z.abs z) ->
  (size = 0 /\ ends (stops base) rest) \/ size = Z.of_nat (length ds) ->
  scan_num base size (sign z ++ ds ++ rest) = Some (z, rest).
Proof.
  intros Hb Hne Hn E. unfold scan_num.
  pose proof (numeral_range base ds _ Hb Hn) as R.
  assert (B : 2 <= base <= 36) by lia.
  assert (Sp : forall sz, Z.of_nat (length ds) <= sz -> sz = Z.of_nat (length ds) \/ ends (stops base) rest ->
    span (base - 1) sz (ds ++ rest) = (ds, rest)).
  { intros sz L H. apply span_digits; auto. destruct H as [H|H]; [now left|right].
    destruct rest as [|c rest]; [exact Logic.I|]. now apply stops_range. }
  assert (S1 : span (base - 1) (if size =? 0 then Z.of_nat (length (sign z ++ ds ++ rest)) else size) (ds ++ rest) = (ds, rest)).
  { destruct E as [[-> E]|E].
    - cbn [Z.eqb]. apply Sp; [rewrite !app_length; lia|now right].
    - destruct (Z.eqb_spec size 0); [|apply Sp; lia]. destruct ds; [contradiction|cbn in E; lia]. }
  assert (F : from_str base 0 ds = Some (Z.abs z)) by (rewrite (from_numeral base ds _ B Hn); f_equal; lia).
  unfold sign in *. destruct (Z.ltb_spec z 0).
  - cbn [app] in *. rewrite S1, F. do 2 f_equal. lia.
  - cbn [app] in *.
    assert (M : exists c r, ds ++ rest = c :: r /\ c <> 45).
    { destruct Hn as [|c d ds u [_ Hc] _]; [contradiction|]. exists c, (ds ++ rest). split; [reflexivity|lia]. }
    destruct M as (c & r & M & Hc). rewrite M in *. rewrite not_minus by auto. rewrite S1, F. do 2 f_equal. lia.
Qed.

Lemma word_ok t : Forall (fun c => isspace c = false) t -> forall size rest,
  Z.of_nat (length t) <= size -> ends isspace rest ->
  (rest = [] -> size = Z.of_nat (length t)) ->
  word size (t ++ rest) = Some (t, rest).
Proof.
  induction 1 as [|c t Hc _ IH]; intros size rest L E N.
  - cbn [app]. destruct rest as [|c rest].
    + cbn. now rewrite (N eq_refl).
    + cbn [word]. cbn in E. now rewrite E, andb_false_r.
  - cbn [app word length] in *. destruct (Z.ltb_spec 0 size); [|lia]. rewrite Hc. cbn [negb andb].
    rewrite IH; auto; [lia|]. intros H'. specialize (N H'). lia.
Qed.

Lemma digit_sscanf d s a args inp : (d <= 9)%nat ->
  sscanf (String (ascii_of_nat (48 + d)) s) (Some a) args inp =
  match widen a (Z.of_nat d) with Some w => sscanf s (Some w) args inp | None => SBig end.
Proof. intros Hd. ten d. Qed.

Lemma digits_sscanf ds s args inp : forall a, 0 <= a -> Forall (fun d => (d <= 9)%nat) ds ->
  grow ds a < 2 ^ 31 ->
  sscanf (show_digits ds s) (Some a) args inp = sscanf s (Some (grow ds a)) args inp.
Proof.
  induction ds as [|d ds IH]; intros a Ha F G; [reflexivity|].
  apply Forall_cons_iff in F. destruct F as [Hd F]. cbn [show_digits].
  rewrite digit_sscanf by auto. change (grow (d :: ds) a) with (grow ds (10 * a + Z.of_nat d)) in *.
  pose proof (grow_mono ds (10 * a + Z.of_nat d) ltac:(lia)).
  rewrite widen_ok by lia. apply IH; auto; lia.
Qed.

Lemma letter_sscanf k base s size inp z rest : base_of k = Some base ->
  scan_num base size inp = Some (z, rest) ->
  sscanf (String (show_letter k) s) (Some size) [] inp =
  match sscanf s None [] rest with Found l => Found (VInt z :: l) | o => o end.
Proof.
  intros B E. destruct k; try discriminate B; injection B as <-; cbn [show_letter sscanf]; now rewrite E.
Qed.

(** The text of a number that a pattern without width or with zeros gives. *)
Lemma formats_int lj zero k base n z t : base_of k = Some base -> 0 <= n -> lj = false ->
  (n = 0 /\ zero = false /\ (k = Lb -> 0 <= z)) \/ (0 < n /\ zero = true /\ 0 <= z) ->
  formats lj zero n k (VInt z) (Some t) ->
  exists ds, t = sign z ++ ds /\ ds <> [] /\ numeral base ds (Z.abs z) /\
    (0 < n -> Z.of_nat (length ds) = n).
Proof.
  intros B Hn -> C F.
  assert (G : forall base, 2 <= base <= 36 -> field false zero n (sign z) (num base (Z.abs z)) = Some t ->
    exists ds, t = sign z ++ ds /\ ds <> [] /\ numeral base ds (Z.abs z) /\ (0 < n -> Z.of_nat (length ds) = n)).
  { clear base B F. intros base Hb F. unfold field in F.
    pose proof (num_numeral base (Z.abs z) Hb ltac:(lia)) as N.
    pose proof (num_cons base (Z.abs z) Hb ltac:(lia)) as NE.
    destruct C as [(-> & -> & _)|(Hn' & -> & Hz)].
    - change (0 <? 0) with false in F. cbn [andb] in F. injection F as <-.
      replace (Z.to_nat (0 - Z.of_nat (length (sign z) + length (num base (Z.abs z))))) with 0%nat by lia.
      exists (num base (Z.abs z)). repeat split; auto. lia.
    - rewrite sign_pos in * by auto. cbn [length plus app] in *.
      destruct (Z.ltb_spec 0 n); [|lia]. cbn [andb] in F.
      destruct (Z.ltb_spec (n - Z.of_nat (length (num base (Z.abs z)))) 0); [discriminate|].
      injection F as <-. eexists. split; [reflexivity|]. repeat split.
      + intros E. apply app_eq_nil in E. destruct E. contradiction.
      + now apply numeral_zeros.
      + intros _. rewrite app_length, repeat_length. lia. }
  inversion F as [z' E1 E2 E3|z' E1 E2 E3|z' E1 E2 E3|z' E1 E2 E3| | | ]; subst; injection B as <-;
    try (apply G; [lia|assumption]).
  (* binary *)
  rename E3 into E. clear G F. unfold binary in E.
  assert (Hz : 0 <= z) by (destruct C as [(_ & _ & H)|(_ & _ & H)]; auto).
  rewrite sign_pos by auto. cbn [app]. rewrite Z.abs_eq in * by auto.
  assert (N : forall m, (bits z <= m)%nat -> numeral 2 (twos m z) z).
  { intros m Hm. replace m with ((m - bits z) + bits z)%nat by lia.
    pose proof (bits_pow z). rewrite Z.abs_eq in * by auto.
    rewrite <- twos_zeros by lia. apply numeral_zeros; [lia|].
    rewrite <- num2 by auto. apply num_numeral; lia. }
  assert (NE : forall m, (1 <= m)%nat -> twos m z <> []).
  { intros m Hm E0. apply (f_equal (@length Z)) in E0. rewrite twos_length in E0. cbn in E0. lia. }
  assert (B1 : (1 <= bits z)%nat) by (unfold bits; destruct (z =? 0); lia).
  exists t. split; [reflexivity|].
  destruct (Z.eqb_spec n 0).
  - injection E as <-. repeat split; [apply NE|apply N|lia];
      destruct (zero || (z =? 0)); lia.
  - destruct (Z.leb_spec (2 ^ n) z); [discriminate|]. injection E as <-.
    assert (B2 : (bits z <= Z.to_nat n)%nat).
    { pose proof (proj2 (bits_le z n ltac:(lia))). rewrite Z.abs_eq in * by auto. lia. }
    repeat split; [apply NE; lia|apply N; lia|]. intros _. rewrite twos_length. lia.
Qed.

Theorem scans_back l args : scans l args -> forall t, prints l args (Some t) ->
  sscanf (show l) None [] t = Found args.
Proof.
  induction 1 as [|c l args S IH|l args S IH|k base z l args B Hk N S IH
                 |k base d ds z l args B Hz S IH|u l args Hu N S IH]; intros t P.
  - reflexivity.
  - inversion P as [|c' l' args' o C P'| |]; subst. destruct o as [r|]; [|discriminate].
    match goal with H : _ = Some t |- _ => injection H as <- end.
    cbn [show show_item sscanf]. destruct (Ascii.eqb_spec c "%"%char); [contradiction|].
    cbn [app]. rewrite Z.eqb_refl. now apply IH.
  - inversion P as [| |l' args' o P'|]; subst. destruct o as [r|]; [|discriminate].
    match goal with H : _ = Some t |- _ => injection H as <- end.
    cbn. now apply IH.
  - inversion P as [| | |lj zero w k' l' a n v args' r o T F P']; subst.
    inversion T; subst. destruct r as [x|]; [|discriminate]. destruct o as [y|]; [|discriminate].
    match goal with H : _ = Some t |- _ => injection H as <- end.
    destruct (formats_int _ _ _ base _ _ _ B (Z.le_refl 0) eq_refl
                (or_introl (conj eq_refl (conj eq_refl Hk))) F) as (ds & -> & NE & Nu & _).
    change (show (Dir false false NoW k :: l)) with (String "%" (String (show_letter k) (show l))).
    cbn [sscanf]. change (Ascii.eqb "%" "%") with true. cbv iota.
    change (sscanf (String (show_letter k) (show l)) (Some 0) [] ((sign z ++ ds) ++ y) = Found (VInt z :: args')).
    rewrite <- app_assoc.
    rewrite (letter_sscanf k base _ _ _ z y B).
    + now rewrite (IH y P').
    + apply scan_num_ok; auto; [now apply base_of_cases with k|]. left. split; [reflexivity|].
      now apply next_ends with l args'.
  - inversion P as [| | |lj zero w k' l' a n v args' r o T F P']; subst.
    pose proof (takes_pos _ _ _ _ T) as Hn.
    inversion T as [|d' ds' args0 n' Hd Fd En Hn2|]; subst.
    destruct r as [x|]; [|discriminate]. destruct o as [y|]; [|discriminate].
    match goal with H : _ = Some t |- _ => injection H as <- end.
    change (fold_left _ (d :: ds) 0) with (grow (d :: ds) 0) in *.
    assert (Hpos : 0 < grow (d :: ds) 0).
    { change (grow (d :: ds) 0) with (grow ds (Z.of_nat d)).
      pose proof (grow_mono ds (Z.of_nat d) ltac:(lia)). lia. }
    destruct (formats_int _ _ _ base _ _ _ B Hn eq_refl
                (or_intror (conj Hpos (conj eq_refl Hz))) F) as (es & -> & NE & Nu & Le).
    change (show (Dir false true (W d ds) k :: l))
      with (String "%" (String "0" (show_digits (d :: ds) (String (show_letter k) (show l))))).
    cbn [sscanf]. change (Ascii.eqb "%" "%") with true. cbv iota.
    change (match widen 0 (code "0" - 48) with
            | Some w => sscanf (show_digits (d :: ds) (String (show_letter k) (show l))) (Some w) [] ((sign z ++ es) ++ y)
            | None => SBig end = Found (VInt z :: args')).
    change (widen 0 (code "0" - 48)) with (Some 0). cbv iota.
    rewrite digits_sscanf; [|lia|constructor; [lia|auto]|auto].
    rewrite <- app_assoc.
    rewrite (letter_sscanf k base _ _ _ z y B).
    + now rewrite (IH y P').
    + apply scan_num_ok; auto; [now apply base_of_cases with k|]. right. symmetry. auto.
  - inversion P as [| | |lj zero w k' l' a n v args' r o T F P']; subst.
    inversion T; subst. inversion F; subst. destruct o as [y|].
    2: { destruct (field _ _ _ _ _); discriminate. }
    match goal with H : _ = Some t |- _ => rename H into E end.
    unfold field in E. cbn [length plus app] in E. change (0 <? 0) with false in E. cbn [andb] in E.
    replace (Z.to_nat (0 - Z.of_nat (length u))) with 0%nat in E by lia. cbn in E. injection E as <-.
    change (show (Dir false false NoW Ls :: l)) with (String "%" (String "s" (show l))).
    change (match scan_str 0 (u ++ y) with
            | Some (t, inp) => match sscanf (show l) None [] inp with Found l => Found (VStr t :: l) | o => o end
            | None => Past end = Found (VStr u :: args')).
    unfold scan_str. change (0 =? 0) with true. cbv iota.
    rewrite (word_ok u Hu).
    + now rewrite (IH y P').
    + rewrite app_length. lia.
    + now apply next_ends with l args'.
    + intros ->. now rewrite app_nil_r.
Qed.

Lemma no_bad s : forall (dir : option Z) args inp, has_bad (if dir then true else false) s = false ->
  sscanf s dir args inp <> Unsupported.
Proof.
  induction s as [|c s IH]; intros dir args inp E.
  - destruct dir; discriminate.
  - cbn [has_bad sscanf] in *. destruct dir as [size|].
    + assert (K : forall w a, has_bad true s = false -> sscanf s (Some w) a inp <> Unsupported)
        by (intros w a; apply (IH (Some w))).
      assert (N : forall a i, has_bad false s = false -> sscanf s None a i <> Unsupported)
        by (intros a i; apply (IH None)).
      assert (D : forall v i, has_bad false s = false ->
        match sscanf s None args i with Found l => Found (v :: l) | o => o end <> Unsupported).
      { intros v i F. specialize (N args i F). destruct (sscanf s None args i); congruence. }
      assert (P : forall base, has_bad false s = false ->
        match scan_num base size inp with
        | Some (z, inp) => match sscanf s None args inp with Found l => Found (VInt z :: l) | o => o end
        | None => Null end <> Unsupported).
      { intros base F. destruct (scan_num base size inp) as [[z i]|]; [now apply D|discriminate]. }
      assert (Q : has_bad false s = false ->
        match scan_str size inp with
        | Some (z, inp) => match sscanf s None args inp with Found l => Found (VStr z :: l) | o => o end
        | None => Past end <> Unsupported).
      { intros F. destruct (scan_str size inp) as [[z i]|]; [now apply D|discriminate]. }
      assert (Wd : forall d, has_bad true s = false ->
        match widen size d with Some w => sscanf s (Some w) args inp | None => SBig end <> Unsupported).
      { intros d F. destruct (widen size d); [now apply K|discriminate]. }
      assert (St : has_bad true s = false ->
        match args with
        | VInt z :: args => match get_int z with Some w => sscanf s (Some w) args inp | None => SBig end
        | _ => SBad end <> Unsupported).
      { intros F. destruct args as [|[] args]; try discriminate. destruct (get_int z); [now apply K|discriminate]. }
      assert (Pc : has_bad false s = false ->
        match inp with x :: inp => if x =? 37 then sscanf s None args inp else Mismatch | [] => Mismatch end
        <> Unsupported).
      { intros F. destruct inp as [|x i]; [discriminate|]. destruct (x =? 37); [now apply N|discriminate]. }
      clear D IH.
      destruct c as [[] [] [] [] [] [] [] []]; cbv beta iota zeta in *; try discriminate E;
        first [apply N; exact E | apply K; exact E | apply Wd; exact E | apply P; exact E
              | apply St; exact E | apply Q; exact E | apply Pc; exact E].
    + destruct (Ascii.eqb c "%"%char); [now apply (IH (Some 0))|].
      destruct inp as [|x i]; [discriminate|]. destruct (x =? code c); [|discriminate]. now apply (IH None).
Qed.

(** The types of the type checker. *)
Lemma arrows_inj r r' : arrow_free r -> arrow_free r' -> forall l l',
  fold_right sarrow r l = fold_right sarrow r' l' -> l = l' /\ r = r'.
Proof.
  intros H H'. induction l as [|a l IH]; intros [|b l'] E; cbn in E; auto.
  - now apply H in E.
  - symmetry in E. now apply H' in E.
  - injection E as -> E. destruct (IH _ E) as [-> ->]. auto.
Qed.

Lemma conv_free k : arrow_free (conv_sch k).
Proof. destruct k; intros a b; discriminate. Qed.

Lemma tuple_free l : arrow_free (tuple_of (map conv_sch l)).
Proof.
  destruct l as [|k [|k' l]]; cbn; [intros a b; discriminate|apply conv_free|intros a b; discriminate].
Qed.

Theorem typed_prints pat args res : arrow_free res ->
  printf_type pat res = PType (fold_right sarrow res (map type_of args)) ->
  Sprintf pat args <> Bad /\ arity false pat = length args.
Proof.
  intros A E. unfold printf_type in E. destruct (printf_pat false pat) as [l|] eqn:P; [|discriminate].
  injection E as E. apply arrows_inj in E; auto. destruct E as [E _]. split.
  - now apply (types_printf pat Plain l).
  - rewrite (arity_pat _ _ _ P). apply (f_equal (@length _)) in E. now rewrite !map_length in E.
Qed.

Theorem typed_scans pat args input r : arrow_free r ->
  sscanf_type pat = PType (sarrow sstring (fold_right sarrow r (map type_of args))) ->
  Sscanf pat input args <> SBad /\ Sscanf pat input args <> Unsupported /\
  forall vs, Sscanf pat input args = Found vs -> r = tuple_of (map type_of vs).
Proof.
  intros A E. unfold sscanf_type in E. destruct (has_bad false pat) eqn:B; [discriminate|].
  destruct (printf_pat false pat) as [l|] eqn:P; [|discriminate]. injection E as E.
  apply arrows_inj in E; auto using tuple_free. destruct E as [E <-].
  destruct (types_sscanf pat None l args (strtemp input) P (eq_sym E)) as [H1 H2].
  split; [exact H1|]. split; [now apply (no_bad pat None)|]. intros vs F. now rewrite (H2 vs F).
Qed.

Theorem sprints l args o : prints l args o ->
  (o = None -> Sprintf (show l) args = Failed) /\
  (forall t, o = Some t -> (length t <= lim)%nat -> Sprintf (show l) args = Done t).
Proof.
  intros P. destruct (prints_printf _ _ _ P) as [H1 H2].
  assert (N : strtemp [] = []) by (unfold strtemp; apply firstn_nil).
  unfold Sprintf. rewrite N. split; [auto|]. intros t E L. rewrite (H2 t []); auto.
Qed.

Theorem reads_back l args t : scans l args -> prints l args (Some t) -> (length t <= lim)%nat ->
  Sscanf (show l) t [] = Found args.
Proof.
  intros S P L. unfold Sscanf, strtemp. rewrite firstn_all2 by auto. now apply scans_back.
Qed.
