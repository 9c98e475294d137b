(* Property theorems: cached list look-ups (C33), set functions (C34), list
   segments (C35), generic comparison (C37). *)
From Coq Require Import List Arith NArith ZArith Bool Lia.
From Verif Require Import HashModel HashThms ListModel ListThms ListSetThms ListSegThms.
Import ListNotations.

(* C33: any sequence of look-ups on any lists, with addresses of dead lists
   reused for new ones: each answer is that of a scan of the list. *)
Theorem C33_history : forall (hf : N -> N -> N) (he : N -> N -> bool) (hd_of tl_of : N -> N) l h,
  good_hash hf he ->
  (forall e, e <> 0%N -> hd_of e <> 0%N /\ tl_of e <> 0%N) ->
  (forall p, ok_list (h p)) -> lproper he hd_of tl_of l h ->
  lrun hf he hd_of tl_of l h tbls0 = Some (sp_lrun he hd_of tl_of l h).
Proof.
  intros hf he hd_of tl_of l h G P O Pr. apply lrun_spec; auto.
  split; [assumption|]. cbn. repeat split; discriminate.
Qed.
Print Assumptions C33_history.

(* The equality and the hash function on nodes that the look-ups use fit
   together, on data without functions. *)
Theorem C33_keys : forall (ihash : Z -> N -> N) (sptr : list N -> N) (c : N -> gval),
  (forall z n, (0 < n)%N -> (ihash z n < n)%N) ->
  (forall p, data (c p) = true /\ c p <> GNull) ->
  good_hash (fun p n => G_rec_hash ihash sptr (c p) n) (fun p q => G_rec_equ (c p) (c q)) /\
  forall p q, G_rec_equ (c p) (c q) = true <-> c p = c q.
Proof.
  intros ihash sptr c R D. split; [now apply good_grec|].
  intros p q. apply grec_eq, D.
Qed.
Print Assumptions C33_keys.

(* The key of an entry e is e / 10 + 1, its value e mod 10 + 1. *)
Example C33_ex :
  lrun (fun k n => (k mod n)%N) N.eqb (fun e => e / 10 + 1)%N (fun e => e mod 10 + 1)%N
    [QAssoc 1 5; QAssoc 1 3; QMem 1 30; QEl 1 2; QEl 1 1; QEl 1 9; QAssoc 1 3; QRev 1 3;
     QReuse 1 (lof [77]); QAssoc 1 3; QEl 1 1]%N
    (fun _ => lof [22; 23; 42; 21]%N) tbls0
  = Some [Ok 3; Ok 3; Ok 0; Ok 23; Ok 22; Fail; Ok 3; Ok 3; Fail; Ok 77]%N /\
  (forall p : N, ok_list (lof [22; 23; 42; 21]%N)).
Proof.
  split; [vm_compute; reflexivity|]. intros _. split; [discriminate|].
  split; [vm_compute; discriminate|]. cbn. repeat split; discriminate.
Qed.

(* C34 *)
Theorem C34_setify : forall hf he l, good_hash hf he -> ok_elems l ->
  exists r, setify hf he l = Some r /\ r = nub he l /\ distinct he r /\
    forall x, elem he x r = elem he x l.
Proof.
  intros hf he l G O. exists (nub he l). split; [now apply setify_spec|]. split; [reflexivity|].
  split; [now apply (nub_distinct hf)|]. intros x. now apply (elem_nub hf).
Qed.
Print Assumptions C34_setify.

(* The result is duplicate free if neither list is empty, or if both are. *)
Theorem C34_union : forall hf he l1 l2, good_hash hf he -> ok_elems (l1 ++ l2) ->
  exists r, my_union hf he l1 l2 = Some r /\
    (forall x, elem he x r = elem he x l1 || elem he x l2) /\ nub he r = nub he (l1 ++ l2) /\
    (l1 <> [] -> l2 <> [] -> r = nub he (l1 ++ l2)) /\
    (distinct he l1 -> distinct he l2 -> r = nub he (l1 ++ l2)).
Proof. intros hf he l1 l2 G O. now apply union_any. Qed.
Print Assumptions C34_union.

(* The union with the empty list keeps the duplicates. *)
Theorem C34_union_refuted : exists l2 r,
  my_union (fun k n => (k mod n)%N) N.eqb [] l2 = Some r /\ ~ distinct N.eqb r.
Proof.
  exists [7; 7]%N, [7; 7]%N. split; [reflexivity|]. intros [D _]. discriminate.
Qed.
Print Assumptions C34_union_refuted.

Theorem C34_intersect : forall hf he l1 l2, good_hash hf he -> ok_elems l1 -> ok_elems l2 ->
  exists r, intersect hf he l1 l2 = Some r /\ r = nub he (filter (fun x => elem he x l2) l1) /\
    distinct he r /\ forall x, elem he x r = elem he x l1 && elem he x l2.
Proof.
  intros hf he l1 l2 G O1 O2. eexists. split; [now apply inter_spec|]. split; [reflexivity|].
  split; [now apply (nub_distinct hf)|]. intros x. rewrite (elem_nub hf he G).
  rewrite (elem_filter he). { apply andb_comm. } intros y z. now apply (elem_cong hf).
Qed.
Print Assumptions C34_intersect.

Theorem C34_subtract : forall hf he l1 l2, good_hash hf he -> ok_elems l1 -> ok_elems l2 ->
  exists r, subtract hf he l1 l2 = Some r /\ r = filter (fun x => negb (elem he x l2)) l1 /\
    (distinct he l1 -> distinct he r) /\
    forall x, elem he x r = elem he x l1 && negb (elem he x l2).
Proof.
  intros hf he l1 l2 G O1 O2. eexists. split; [now apply sub_spec|]. split; [reflexivity|].
  split; [now apply distinct_filter|]. intros x.
  rewrite (elem_filter he). { apply andb_comm. } intros y z Q. f_equal. now apply (elem_cong hf).
Qed.
Print Assumptions C34_subtract.

Theorem C34_overlap : forall hf he l1 l2, good_hash hf he -> ok_elems l1 -> ok_elems l2 ->
  exists b, overlap hf he l1 l2 = Some b /\
    (b = true <-> exists x, elem he x l1 = true /\ elem he x l2 = true).
Proof.
  intros hf he l1 l2 G O1 O2. eexists. split; [now apply over_spec|].
  rewrite existsb_exists. split.
  - intros (x & I & E). exists x. split; auto. now apply (elem_in hf).
  - intros (x & A & B). apply (elem_split he) in B. destruct B as (a & y & b & -> & Q).
    exists y. split; [apply in_or_app; right; now left|].
    now rewrite <- (elem_cong hf he G x y l1 Q).
Qed.
Print Assumptions C34_overlap.

(* set_eq never answers wrongly, and fails only on lists with duplicates. *)
Theorem C34_set_eq : forall hf he l1 l2, good_hash hf he -> ok_elems l1 -> ok_elems l2 ->
  exists r, set_eq hf he l1 l2 = Some r /\ r <> Undef /\
    (forall b, r = Ok b -> (b = true <-> forall x, elem he x l1 = elem he x l2)) /\
    (distinct he l1 -> distinct he l2 -> r <> Fail).
Proof. intros hf he l1 l2 G O1 O2. now apply set_eq_spec. Qed.
Print Assumptions C34_set_eq.

Example C34_ex : let hf := (fun k n => ((k mod 10) mod n)%N) in
  let he := (fun x y => (x mod 10 =? y mod 10)%N) in
  setify hf he [12; 3; 22; 3; 5]%N = Some [12; 3; 5]%N /\
  my_union hf he [12; 3; 22]%N [7; 33]%N = Some [12; 3; 7]%N /\
  intersect hf he [12; 3; 22; 7; 9]%N [2; 7]%N = Some [12; 7]%N /\
  subtract hf he [12; 3; 22; 7]%N [32; 8]%N = Some [3; 7]%N /\
  overlap hf he [1; 2]%N [5; 11]%N = Some true /\
  set_eq hf he [1; 2; 3]%N [13; 11; 2]%N = Some (Ok true) /\
  set_eq hf he [1; 2]%N [11; 21]%N = Some Fail /\ good_hash hf he.
Proof.
  cbv zeta. do 7 (split; [vm_compute; reflexivity|]). split.
  - intros k n L. apply N.mod_lt. lia.
  - intros k. apply N.eqb_refl.
  - intros k1 k2. now rewrite N.eqb_sym.
  - intros k1 k2 k3. rewrite !N.eqb_eq. congruence.
  - intros k1 k2 n. rewrite N.eqb_eq. congruence.
Qed.

(* C35.  [lapp l r] is a list that begins with l; its rest r may be unevaluated,
   but must not fail when evaluated. *)
Theorem C35_firstn : forall n l r, int_ok n = true -> r <> LFail ->
  (n <= Z.of_nat (length l))%Z ->
  c_firstn n (lapp l r) = Ok (firstn (Z.to_nat n) l) /\
  c_butfirstn n (lapp l r) = Ok (lapp (skipn (Z.to_nat n) l) r).
Proof.
  intros n l r H D L. unfold c_firstn, c_butfirstn. rewrite (get_int_ok n H).
  rewrite firstn_loop_spec, butfirstn_loop_spec by (auto; lia). now rewrite Z.sub_0_r.
Qed.
Print Assumptions C35_firstn.
Theorem C35_firstn_fails : forall n l, int_ok n = true -> (Z.of_nat (length l) < n)%Z ->
  c_firstn n (lof l) = Fail /\ c_butfirstn n (lof l) = Fail.
Proof.
  intros n l H L. unfold c_firstn, c_butfirstn. rewrite (get_int_ok n H).
  rewrite firstn_loop_fail, butfirstn_loop_fail by lia. auto.
Qed.
Print Assumptions C35_firstn_fails.

Theorem C35_lastn : forall n l, int_ok n = true -> (0 <= n)%Z -> int_ok (Z.of_nat (length l)) = true ->
  (c_lastn n l = if (n <=? Z.of_nat (length l))%Z
                 then Ok (skipn (length l - Z.to_nat n) l) else Fail) /\
  (c_butlastn n l = if (n <=? Z.of_nat (length l))%Z
                    then Ok (firstn (length l - Z.to_nat n) l) else Fail).
Proof.
  intros n l H P L. unfold c_lastn, c_butlastn. rewrite (get_int_ok n H), !Z.ltb_antisym.
  destruct (n <=? Z.of_nat (length l))%Z eqn:E; cbn [negb]; [|auto]. apply Z.leb_le in E.
  assert (I : int_ok (Z.of_nat (length l) - n) = true).
  { unfold int_ok in *. rewrite andb_true_iff, !Z.leb_le in *. lia. }
  rewrite I, drop_loop_spec, take_loop_spec by lia.
  replace (Z.to_nat (Z.of_nat (length l) - n - 0)) with (length l - Z.to_nat n) by lia. auto.
Qed.
Print Assumptions C35_lastn.

(* A negative count runs off the end of the list. *)
Theorem C35_lastn_refuted : exists n l,
  c_lastn n l = Undef /\ c_butlastn n l = Undef /\ c_firstn n (lof l) = Ok [].
Proof. exists (-1)%Z, [5]%N. repeat split. Qed.
Print Assumptions C35_lastn_refuted.
(* A count that does not fit an int is cut; one that does not fit a word crashes. *)
Theorem C35_count_refuted : exists n l r,
  (Z.of_nat (length l) < n)%Z /\ c_firstn n (lof l) = Ok r /\
  exists n', c_firstn n' (lof l) = Undef.
Proof.
  exists 4294967297%Z, [5; 6]%N, [5]%N. split; [reflexivity|]. split; [reflexivity|].
  exists 9223372036854775808%Z. reflexivity.
Qed.
Print Assumptions C35_count_refuted.

Theorem C35_rest : forall l l2 e ll,
  c_butlast [] = Fail /\ c_butlast (l ++ [e]) = Ok l /\
  c_last [] = Fail /\ c_last (l ++ [e]) = Ok e /\
  c_rev l = rev l /\ c_length l = Z.of_nat (length l) /\
  c_append l l2 = l ++ l2 /\ c_flat ll = concat ll.
Proof.
  intros l l2 e ll. split; [reflexivity|]. split; [apply butlast_spec|]. split; [reflexivity|].
  split; [apply last_spec|]. split; [apply rev_spec|]. split; [apply length_spec|].
  split; [apply append_spec|apply flat_spec].
Qed.
Print Assumptions C35_rest.

(* gather and separate; an index that is out of range is a failure. *)
Theorem C35_gather : forall l is,
  forallb int_ok is = true -> (Z.of_nat (length l) <= 2147483647)%Z ->
  c_gather l is = if forallb (idx_ok l) is then Ok (map (at_ l) is) else Fail.
Proof. exact gather_spec. Qed.
Print Assumptions C35_gather.
Theorem C35_separate : forall l is,
  forallb int_ok is = true -> (Z.of_nat (length l) <= 2147483647)%Z ->
  c_separate l is =
  if forallb (idx_ok l) is
  then Ok (map (at_ l) (firsts is),
           map (at_ l) (filter (fun i => negb (existsb (Z.eqb i) is)) (positions l)))
  else Fail.
Proof. exact separate_spec. Qed.
Print Assumptions C35_separate.

Example C35_ex :
  c_firstn 2 (lapp [1; 2; 3] (LCons 4 LFail))%N = Ok [1; 2]%N /\
  c_lastn 2 [1; 2; 3]%N = Ok [2; 3]%N /\ c_butlastn 2 [1; 2; 3]%N = Ok [1]%N /\
  c_lastn 4 [1; 2; 3]%N = Fail /\ c_rev [1; 2; 3]%N = [3; 2; 1]%N /\
  c_gather [11; 12; 13]%N [3; 1; 3]%Z = Ok [13; 11; 13]%N /\
  c_gather [11; 12; 13]%N [-1]%Z = Fail /\
  c_separate [11; 12; 13; 14]%N [4; 1; 4]%Z = Ok ([14; 11], [12; 13])%N.
Proof. repeat split. Qed.

(* C37: on values whose Boolean leaves are uncomplemented BDDs. *)
Theorem C37_total_order : forall a b c, plain a -> plain b -> plain c ->
  gcmp a a = Some 0%Z /\
  (exists r, gcmp a b = Some r /\ gcmp b a = Some (- r)%Z /\ (r = 0%Z <-> a = b)) /\
  (forall r q, gcmp a b = Some r -> gcmp b c = Some q -> (r <= 0)%Z -> (q <= 0)%Z ->
     exists p, gcmp a c = Some p /\ (p <= 0)%Z).
Proof.
  intros a b c A B C. split; [now apply gcmp_eq|]. split.
  - destruct (gcmp_total a b A B) as (r & E). exists r. split; [assumption|].
    split; [now apply gcmp_anti|]. rewrite <- (gcmp_eq a b A B), E. split; congruence.
  - intros r q E F R Q. destruct (Z.eq_dec r 0) as [->|Nr].
    { apply gcmp_eq in E; auto. subst. eauto. }
    destruct (Z.eq_dec q 0) as [->|Nq].
    { apply gcmp_eq in F; auto. subst. eauto. }
    destruct (gcmp_trans a b c A B C r q E F) as (p & P & L); [lia|lia|].
    exists p. split; [assumption|lia].
Qed.
Print Assumptions C37_total_order.

(* Comparing F (formula 0) with T (formula 2^31) overflows an int; with the
   wrap-around of the usual machines each is less than the other. *)
Theorem C37_bool_refuted :
  gcmp (GBool 0) (GBool 2147483648) = None /\
  (wrap32 (as_int 0 - as_int 2147483648) < 0)%Z /\
  (wrap32 (as_int 2147483648 - as_int 0) < 0)%Z.
Proof. split; [reflexivity|]. split; reflexivity. Qed.
Print Assumptions C37_bool_refuted.

Example C37_ex :
  let v := GCons (GInt 3) (GCons (GStr [97; 98]%N) (GCons GNull GNull)) in
  let w := GCons (GInt 3) (GCons (GStr [97; 99]%N) (GCons GNull GNull)) in
  plain v /\ plain w /\ gcmp v w = Some (-1)%Z /\ gcmp w v = Some 1%Z /\
  gcmp v (GCons GNull GNull) = Some 1%Z.
Proof. repeat split. Qed.
