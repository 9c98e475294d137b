(** Conversion between integers and bit vectors in bv.c. *)
From stdpp Require Import gmap strings list.
From Coq Require Import NArith ZArith Lia.
From Verif Require Import BddModel BddWf BddOps BddRelprod BddDen BddHist BddThms ArbModel ArbBase ArbMul ArbDiv ArbDivThm ArbStr BvModel BvBits BvTri BvArith.
Open Scope Z_scope.

Definition bitof (c : Z) : fml := if c =? 49 then ONE else ZERO.
Definition isone (c : Z) : bool := c =? 49.
Lemma bits_digits s E ds : bits s E (map bitof ds) = map isone ds.
Proof. induction ds as [|c ds IH]; [done|]. cbn. f_equal; [|exact IH]. unfold bitof, isone. destruct (c =? 49); [apply den_ONE|apply den_ZERO]. Qed.
Definition bin (ds : list Z) : Prop := Forall (fun c => c = 48 \/ c = 49) ds.
Lemma numeral_bin ds v : numeral 2 ds v -> bin ds /\ uv (map isone ds) = v.
Proof.
  induction 1 as [|c d ds v [Hd Hc] _ [IH1 IH2]]; [split; [constructor|reflexivity]|].
  assert (c = 48 /\ d = 0 \/ c = 49 /\ d = 1) as Hcd by lia. split; [constructor; [lia|done]|].
  cbn [map uv]. rewrite IH2, map_length, pow2_eq. destruct Hcd as [[-> ->]|[-> ->]]; cbn; lia. Qed.
Definition flip (d : Z) : Z := if d =? 49 then 48 else 49.
Lemma isone_flip ds : map isone (map flip ds) = map negb (map isone ds).
Proof. induction ds as [|c ds IH]; [done|]. cbn. f_equal; [|exact IH]. unfold flip, isone. destruct (c =? 49); done. Qed.
(** flipping the digits before the last one negates *)
Lemma flip_rev_spec ds : 0 < uv (map isone (rev ds)) -> bin ds ->
  exists t, flip_rev ds = Some t /\ length t = length ds /\ uv (map isone (rev t)) = pow2 (length ds) - uv (map isone (rev ds)).
Proof.
  induction ds as [|c ds IH]; intros Hp Hb; [cbn in Hp; lia|]. apply Forall_cons in Hb as [Hc Hb].
  cbn [flip_rev rev] in *. rewrite map_app, uv_app in Hp. cbn [map uv length] in Hp. rewrite pow2_S, pow2_0 in Hp.
  destruct (Z.eqb_spec c 49) as [->|Hn].
  - eexists. split; [reflexivity|]. change (fun d : Z => if d =? 49 then 48 else 49) with flip. split; [cbn; by rewrite map_length|].
    cbn [rev]. rewrite !map_app, !uv_app, <- map_rev, isone_flip, uv_not. cbn [map uv length]. rewrite map_length, rev_length, !pow2_S, pow2_0. cbn. lia.
  - assert (c = 48) as -> by lia. cbn in Hp. destruct IH as (t&->&Lt&Vt); [lia|done|]. eexists. split; [reflexivity|]. split; [cbn; lia|].
    cbn [rev]. rewrite !map_app, !uv_app, Vt. cbn [map uv length]. rewrite !pow2_S, pow2_0. cbn. lia.
Qed.
Lemma minwordlt w : MinWord <= w <-> - 2 ^ 63 <= w. Proof. reflexivity. Qed.
Lemma nonneg_numeral x : canon x -> 0 <= val x -> exists n ds, (forall fuel, arbi__ToString (n + fuel) x 2 = Some (Some ds)) /\ numeral 2 ds (val x).
Proof.
  intros Hx Hv. destruct (tostring_spec x 2 Hx ltac:(lia)) as (n&ds&H1&H2).
  - pose proof (val_sign x (proj1 Hx)) as Hs. destruct (Z.ltb_spec (val x) 0); [lia|]. apply Z.ltb_ge in Hs. unfold MinWord, HB. lia.
  - intros [? _]. lia.
  - exists n, ds. split; [done|]. unfold snumeral in H2. destruct (Z.ltb_spec (val x) 0); [lia|done]. Qed.
Lemma Aint2bv_spec x : canon x -> exists n l, (forall fuel, Aint2bv (n + fuel) x = Some l) /\ minimal l /\ l <> [] /\ Forall (fun f => f = ZERO \/ f = ONE) l /\
  forall s E, sv (bits s E l) = val x.
Proof.
  intros Hx. unfold Aint2bv. rewrite val_sign by apply Hx.
  assert (Hall : forall b : bool, forall ds, Forall (fun f => f = ZERO \/ f = ONE) (trim_bv ((if b then ONE else ZERO) :: map bitof ds))).
  { intros b ds. apply Forall_forall. intros f Hf. apply trim_sub in Hf. apply elem_of_cons in Hf as [->|Hf]; [destruct b; auto|].
    apply elem_of_list_In, in_map_iff in Hf as (c&<-&_). unfold bitof. destruct (c =? 49); auto. }
  destruct (Z.ltb_spec (val x) 0) as [Hn|Hp].
  - destruct (neg_spec x (proj1 Hx)) as [Cn Vn]. destruct (nonneg_numeral _ Cn ltac:(lia)) as (n&ds&Hds&Hnum). rewrite Vn in Hnum.
    destruct (numeral_bin _ _ Hnum) as [Hbin Hv]. exists n.
    destruct (flip_rev_spec (rev ds)) as (t&Ht&Lt&Vt); [rewrite rev_involutive; lia|apply Forall_rev; done|]. rewrite rev_involutive, Hv, rev_length in Vt. rewrite rev_length in Lt.
    exists (trim_bv (ONE :: map bitof (rev t))). split_and!; [| | |apply (Hall true)|].
    + intros fuel. rewrite Hds, Ht. reflexivity.
    + apply trim_minimal.
    + by apply trim_nil.
    + intros s E. rewrite trim_sv. change (bits s E (ONE :: map bitof (rev t))) with (den s ONE E :: bits s E (map bitof (rev t))).
      rewrite bits_digits, den_ONE, sv_cons, Vt, map_length, rev_length, Lt. cbn [b2z]. lia.
  - destruct (nonneg_numeral _ Hx Hp) as (n&ds&Hds&Hnum). destruct (numeral_bin _ _ Hnum) as [Hbin Hv]. exists n.
    exists (trim_bv (ZERO :: map bitof ds)). split_and!; [| | |apply (Hall false)|].
    + intros fuel. rewrite Hds. reflexivity.
    + apply trim_minimal.
    + by apply trim_nil.
    + intros s E. rewrite trim_sv. change (bits s E (ZERO :: map bitof ds)) with (den s ZERO E :: bits s E (map bitof ds)).
      rewrite bits_digits, den_ZERO, sv_cons, Hv. cbn [b2z]. lia.
Qed.

(** back *)
Lemma canon_short x n : canon x -> Z.abs (val x) < Bn n -> (length x <= n + 1)%nat.
Proof.
  intros [Ho Ht] Hv. destruct (le_lt_dec (length x) (n + 1)) as [|Hl]; [done|exfalso].
  pose proof (val_trimmed x Ho Ht ltac:(lia)) as Hr. pose proof (Bn_le n (length x - 2) ltac:(lia)). pose proof (Bn_pos (length x - 2)).
  unfold HB in *. lia. Qed.
Lemma two_canon : canon [2]. Proof. apply canonb_ok. vm_compute. reflexivity. Qed.
Lemma list2int_spec s E l : Forall (fun f => f = ZERO \/ f = ONE) l -> Z.of_nat (length l) <= 2000000 ->
  exists v p, bv_list2int l = Some (v, p) /\ canon v /\ canon p /\ val v = uv (bits s E l) /\ val p = pow2 (length l).
Proof.
  induction l as [|f l IH]; intros Hf Hl.
  - exists [0], [1]. split_and!; [done|apply canonb_ok; vm_compute; reflexivity|apply canonb_ok; vm_compute; reflexivity|done|done].
  - apply Forall_cons in Hf as [Hf Hfs]. cbn [length] in Hl. destruct IH as (v&p&El&Cv&Cp&Vv&Vp); [done|lia|]. cbn [bv_list2int]. rewrite El.
    assert (Hlen : (length p <= (length l / 64 + 1) + 1)%nat).
    { apply canon_short; [done|]. rewrite Vp, Bn_pow2, pow2_eq, Z.abs_eq by (apply Z.pow_nonneg; lia).
      apply Z.pow_lt_mono_r; [lia|lia|]. pose proof (Nat.mul_succ_div_gt (length l) 64 ltac:(lia)). lia. }
    assert (Hd : Z.of_nat (length l / 64) <= 31250) by (rewrite Nat2Z.inj_div; apply Z.div_le_upper_bound; lia).
    destruct (mlt_spec p [2] Cp two_canon) as (q&Eq&Cq&Vq); [cbn [length]; lia|intros [? ?]; discriminate|].
    rewrite Eq. set (cur := if decide (f = ZERO) then [0] else p).
    assert (Hcur : canon cur /\ val cur = b2z (den s f E) * pow2 (length l)).
    { subst cur. destruct Hf as [->| ->].
      - rewrite decide_True by done. rewrite den_ZERO. split; [apply canonb_ok; vm_compute; reflexivity|cbn; lia].
      - rewrite decide_False by done. rewrite den_ONE. split; [done|]. rewrite Vp. cbn. lia. }
    destruct Hcur as [Cc Vc]. destruct (add_spec cur v (proj1 Cc) (proj1 Cv)) as [Ca Va]. eexists _, _. split_and!; [reflexivity|done|done| |].
    + rewrite Va, Vc, Vv. change (uv (bits s E (f :: l))) with (b2z (den s f E) * pow2 (length (bits s E l)) + uv (bits s E l)). by rewrite bits_length.
    + rewrite Vq, Vp. cbn [length]. rewrite pow2_S. change (val [2]) with 2. lia.
Qed.
(** vectors with the same value everywhere have constant bits *)
Lemma const_bits l s rs V c : st s rs -> hasz s rs l V -> (forall E, V E = c) -> Forall (fun f => f = ZERO \/ f = ONE) l.
Proof.
  intros Sx (_&Hs&D) HV. assert (Hb : forall E E', bits s E l = bits s E' l) by (intros E E'; apply sv_inj; [by rewrite !bits_length|by rewrite !D, !HV]).
  clear D. induction l as [|f l IH]; [done|]. apply sub_cons in Hs as [Hf Hl]. constructor.
  - destruct (den s f (fun _ => false)) eqn:E0; [right|left]; apply (thm_taut s rs f (proj1 Sx) Hf); intros E;
      pose proof (Hb E (fun _ => false)) as X; cbn in X; injection X as X _; congruence.
  - apply IH; [done|]. intros E E'. specialize (Hb E E'). cbn in Hb. by injection Hb.
Qed.
Lemma scalar_all l : is_scalar_list l = true <-> Forall (fun f => f = ZERO \/ f = ONE) l.
Proof.
  unfold is_scalar_list. rewrite forallb_forall, Forall_forall. setoid_rewrite elem_of_list_In. split; intros H f Hf; specialize (H f Hf); unfold is_scalar in *.
  - destruct (bool_decide_reflect (f = ONE)); [auto|]. destruct (bool_decide_reflect (f = ZERO)); [auto|done].
  - destruct H as [->| ->]; done. Qed.
Lemma bits_const s E s' E' l : Forall (fun f => f = ZERO \/ f = ONE) l -> bits s E l = bits s' E' l.
Proof. induction 1 as [|f l [->| ->] _ IH]; [done| |]; cbn; rewrite ?den_ZERO, ?den_ONE; f_equal; exact IH. Qed.
Lemma minimal_len b c l : b <> c -> pow2 (length l) <= Z.abs (sv (b :: c :: l)) + 1.
Proof. intros Hn. rewrite sv_cons. cbn [uv length]. rewrite pow2_S. pose proof (uv_range l). pose proof (pow2_pos (length l)). destruct b, c; try done; cbn [b2z]; lia. Qed.
Lemma minimal_short s E l n : Forall (fun f => f = ZERO \/ f = ONE) l -> minimal l -> Z.abs (sv (bits s E l)) < pow2 n - 1 -> (length l <= n + 1)%nat.
Proof.
  intros Hf Hm Hv. destruct l as [|f [|g l]]; [cbn; lia|cbn; lia|]. apply Forall_cons in Hf as [Hf Hfs]. apply Forall_cons in Hfs as [Hg Hfs].
  cbn [minimal] in Hm. change (bits s E (f :: g :: l)) with (den s f E :: den s g E :: bits s E l) in Hv.
  assert (Hd : den s f E <> den s g E) by (destruct Hf as [->| ->], Hg as [->| ->]; rewrite ?den_ZERO, ?den_ONE; done).
  pose proof (minimal_len _ _ (bits s E l) Hd) as Hp. rewrite bits_length in Hp. cbn [length].
  destruct (le_lt_dec (S (S (length l))) (n + 1)) as [|Hl]; [done|exfalso].
  assert (pow2 n <= pow2 (length l)) by (rewrite !pow2_eq; apply Z.pow_le_mono_r; lia). lia. Qed.
Lemma bv2int_spec l s rs V : st s rs -> hasz s rs l V -> Z.of_nat (length l) <= 1999990 ->
  tri (bv2int l) s rs (fun r s' rs' => match r with
    | Some n => canon n /\ forall E, V E = val n
    | None => forall c, ~ forall E, V E = c
    end).
Proof.
  intros Sx H Hl. unfold bv2int. destruct (is_scalar_list l) eqn:Hs.
  - pose proof (proj1 (scalar_all l) Hs) as Hall. set (E0 := (fun _ => false) : nenv).
    assert (HV : forall E, V E = V E0) by (destruct H as (_&_&D); intros E; rewrite <- !D; f_equal; by apply bits_const).
    apply tri_bind. eapply h_hd; [done|exact H|]. intros h Hh Hhd _.
    assert (Hh01 : h = ZERO \/ h = ONE) by (destruct l as [|f l']; [done|]; injection Hh as ->; by apply Forall_cons in Hall as [? _]).
    destruct H as [Nl Hr]. assert (H : hasz s rs l V) by (split; done). clear Hr.
    pose proof (proj2 (proj2 H) E0) as DV.
    zstep h_abs ab Hab. destruct Hab as [Hmin Hab].
    assert (Hc : Forall (fun f => f = ZERO \/ f = ONE) ab) by (apply (const_bits ab s0 rs0 _ (Z.abs (V E0)) Sx Hab); intros E; cbv beta; by rewrite HV).
    pose proof (proj2 (proj2 Hab) E0) as Va. cbv beta in Va.
    assert (Hlen : (length ab <= length l + 2 + 1)%nat).
    { apply (minimal_short s0 E0); [done|done|]. rewrite Va, Z.abs_involutive. destruct l as [|f l']; [done|].
      change (bits s E0 (f :: l')) with (den s f E0 :: bits s E0 l') in DV. pose proof (sv_range (den s f E0) (bits s E0 l')) as R. rewrite DV, bits_length in R.
      cbn [length]. rewrite Nat.add_comm. cbn [Nat.add]. rewrite !pow2_S. pose proof (pow2_pos (length l')). lia. }
    destruct (list2int_spec s0 E0 ab Hc ltac:(lia)) as (v&p&El&Cv&_&Vv&_).
    assert (Hu : val v = Z.abs (V E0)) by (rewrite Vv, <- sv_nonneg; rewrite Va; lia).
    apply tri_bind. apply (tri_lift _ (v, p)); [done|done|]. intros _. apply tri_ret; [done|]. cbn [fst].
    destruct Hhd as [_ Dh]. specialize (Dh E0). cbv beta in Dh. destruct Hh01 as [->| ->].
    + rewrite decide_False by done. split; [done|]. intros E. rewrite HV, Hu. rewrite den_ZERO in Dh. symmetry in Dh. apply Z.ltb_ge in Dh. lia.
    + rewrite decide_True by done. destruct (neg_spec v (proj1 Cv)) as [Cn Vn]. split; [done|]. intros E. rewrite HV, Vn, Hu. rewrite den_ONE in Dh. symmetry in Dh. apply Z.ltb_lt in Dh. lia.
  - apply tri_ret; [done|]. intros c Hc. pose proof (const_bits l s rs V c Sx H Hc) as X. apply scalar_all in X. congruence.
Qed.
