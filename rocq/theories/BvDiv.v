(** Division in bv.c. *)
From stdpp Require Import gmap strings list.
From Coq Require Import NArith ZArith Lia.
From Verif Require Import BddModel BddWf BddOps BddRelprod BddDen BddHist BddThms BvModel BvBits BvTri BvArith.
Open Scope Z_scope.

Lemma h_is_zero_loop : forall l z Zf s rs L, st s rs -> has s rs z Zf -> hasv s rs l L ->
  tri (is_zero_loop z l) s rs (fun c s' rs' => has s' rs' c (fun E => Zf E && (uv (L E) =? 0))).
Proof.
  induction l as [|f l IH]; intros z Zf s rs L Sx HZ HL.
  - apply tri_ret; [done|]. eapply has_ext; [exact HZ|]. intros E. pose proof (hasv_len _ _ _ _ E HL) as Q. destruct (L E); [|done]. by destruct (Zf E).
  - cbn [is_zero_loop]. destruct (hasv_uncons _ _ _ _ _ HL) as (F&M1&HF&HM&X). pose proof (fun E => hasv_len _ _ _ _ E HM) as ZM. clear HL.
    hstep h_Not n Hn. hstep h_And y Hy. eapply tri_weaken; [eapply IH; eassumption|]. intros c s2 rs2 _ Hc. eapply has_ext; [exact Hc|]. intros E. cbv beta.
    rewrite X. cbn [uv]. pose proof (uv_range (M1 E)). pose proof (pow2_pos (length (M1 E))).
    destruct (Zf E), (F E); cbn [negb andb b2z]; try done; symmetry; apply Z.eqb_neq; lia.
Qed.
Lemma h_is_zero l s rs L : st s rs -> hasv s rs l L ->
  tri (is_zero_list l) s rs (fun c s' rs' => has s' rs' c (fun E => uv (L E) =? 0)).
Proof. intros Sx HL. eapply tri_weaken; [eapply (h_is_zero_loop l ONE); [done|by apply has_ONE|exact HL]|]. intros c s1 rs1 _ H. exact H. Qed.

(** one step of long division *)
Lemma h_sub_loop : forall r b s rs R B, st s rs -> hasv s rs r R -> hasv s rs b B -> length r = length b ->
  tri (sub_loop r b) s rs (fun p s' rs' => exists S C, hasv s' rs' p.1 S /\ has s' rs' p.2 C /\ length p.1 = length r /\
    forall E, uv (S E) + b2z (C E) * pow2 (length r) = uv (R E) - uv (B E) + pow2 (length r)).
Proof.
  induction r as [|x r IH]; intros [|b0 b] s rs R B Sx HR HB Hl; try done.
  - apply tri_ret; [done|]. exists (fun _ => []), (fun _ => true). split_and!; [apply hasv_nil|by apply has_ONE|done|]. intros E.
    pose proof (hasv_len _ _ _ _ E HR) as Z1. pose proof (hasv_len _ _ _ _ E HB) as Z2. destruct (R E); [|done]. destruct (B E); [|done]. done.
  - cbn [sub_loop]. destruct (hasv_uncons _ _ _ _ _ HR) as (X&R'&HX&HR'&XR), (hasv_uncons _ _ _ _ _ HB) as (Y&B'&HY&HB'&XB).
    pose proof (fun E => hasv_len _ _ _ _ E HR') as ZR. pose proof (fun E => hasv_len _ _ _ _ E HB') as ZB. clear HR HB. injection Hl as Hl.
    hstep IH p Hp. destruct p as [sub cin]. destruct Hp as (S1&C1&HS1&HC1&Ls&D). cbn [fst snd] in *.
    pose proof (fun E => hasv_len _ _ _ _ E HS1) as ZS.
    hstep h_Not y Hy. hstep h_Xor xy Hxy. hstep h_Xor sm Hsum. hstep h_And p Hp. hstep h_And q Hq. hstep h_And t Ht. hstep h_Or u Hu. hstep h_Or cout Hcout.
    apply tri_ret; [done|]. eexists _, _. cbn [fst snd]. split_and!; [apply hasv_cons; [exact Hsum|exact HS1]|exact Hcout|cbn; lia|]. intros E. cbv beta.
    specialize (D E). rewrite XR, XB. cbn [uv length]. rewrite ZS, ZR, ZB, Ls, <- Hl. rewrite pow2_S.
    destruct (X E), (Y E), (C1 E); cbn [negb xorb andb orb b2z] in *; lia.
Qed.
Lemma h_geq_loop : forall r b s rs R B, st s rs -> hasv s rs r R -> hasv s rs b B -> length r = length b ->
  tri (geq_loop r b) s rs (fun c s' rs' => has s' rs' c (fun E => uv (B E) <=? uv (R E))).
Proof.
  induction r as [|x r IH]; intros [|b0 b] s rs R B Sx HR HB Hl; try done.
  - apply tri_ret; [done|]. eapply has_ext; [by apply has_ONE|]. intros E.
    pose proof (hasv_len _ _ _ _ E HR) as Z1. pose proof (hasv_len _ _ _ _ E HB) as Z2. destruct (R E); [|done]. destruct (B E); [|done]. done.
  - cbn [geq_loop]. destruct (hasv_uncons _ _ _ _ _ HR) as (X&R'&HX&HR'&XR), (hasv_uncons _ _ _ _ _ HB) as (Y&B'&HY&HB'&XB).
    pose proof (fun E => hasv_len _ _ _ _ E HR') as ZR. pose proof (fun E => hasv_len _ _ _ _ E HB') as ZB. clear HR HB. injection Hl as Hl.
    hstep IH g Hg. hstep h_Not nb Hnb. hstep h_And xx Hxx. hstep h_Xnor e He. hstep h_And y Hy. hlast h_Or Hr.
    eapply has_ext; [exact Hr|]. intros E. cbv beta. rewrite XR, XB. cbn [uv]. rewrite ZR, ZB, <- Hl.
    pose proof (uv_range (R' E)) as U1. pose proof (uv_range (B' E)) as U2. rewrite ZR in U1. rewrite ZB, <- Hl in U2.
    destruct (Z.leb_spec (uv (B' E)) (uv (R' E))), (X E), (Y E); cbn [negb andb orb Bool.eqb b2z]; symmetry; first [apply Z.leb_le; lia|apply Z.leb_gt; lia].
Qed.
Lemma hasv_tail s rs r R : r <> [] -> hasv s rs r R -> hasv s rs (tail r) (fun E => tail (R E)).
Proof.
  destruct r as [|f r]; [done|]. intros _ H. destruct (hasv_uncons _ _ _ _ _ H) as (X&R'&HX&HR'&XR). cbn [tail].
  eapply hasv_ext; [exact HR'|]. intros E. cbv beta. by rewrite XR. Qed.
Lemma uv_shift (l : list bool) a : l <> [] -> 2 * uv l < pow2 (length l) -> uv (tail l ++ [a]) = 2 * uv l + b2z a.
Proof.
  destruct l as [|b l]; [done|]. intros _ H. cbn [tail]. rewrite uv_app. cbn [uv length] in *. rewrite pow2_S in *. rewrite pow2_0.
  pose proof (uv_range l). pose proof (pow2_pos (length l)). destruct b; cbn [b2z] in *; lia. Qed.
Lemma zipw_choice (c : bool) (l r : list bool) : length l = length r -> zipw (fun a b => if c then a else b) l r = if c then l else r.
Proof. revert r. induction l as [|a l IH]; intros [|b r] H; try done; [by destruct c|]. cbn. rewrite IH by (injection H; done). by destruct c. Qed.

Lemma div_arith q r b p n : 0 <= q -> 0 <= r < b -> q * b + r = p -> p < n -> q < n.
Proof. intros. nia. Qed.
Lemma h_div_bits bb : forall av q r s rs A B Q R k, st s rs -> hasv s rs av A -> hasv s rs bb B -> hasv s rs q Q -> hasv s rs r R ->
  length q = length bb -> length r = length bb -> (k + length av = length bb)%nat ->
  tri (div_bits av bb q r) s rs (fun p s' rs' => exists Q' R', hasv s' rs' p.1 Q' /\ hasv s' rs' p.2 R' /\ length p.1 = length bb /\ length p.2 = length bb /\
    forall E P, uv (B E) <> 0 -> 2 * uv (B E) < pow2 (length bb) -> 0 <= P < pow2 k -> uv (Q E) * uv (B E) + uv (R E) = P -> uv (R E) < uv (B E) ->
      uv (Q' E) * uv (B E) + uv (R' E) = P * pow2 (length av) + uv (A E) /\ uv (R' E) < uv (B E)).
Proof.
  induction av as [|a av IH]; intros q r s rs A B Q R k Sx HA HB HQ HR Lq Lr Lk.
  - apply tri_ret; [done|]. exists Q, R. split_and!; try done. intros E P _ _ HP He Hlt. split; [|done].
    pose proof (hasv_len _ _ _ _ E HA) as Z1. destruct (A E); [|done]. cbn [length uv]. rewrite pow2_0. lia.
  - cbn [div_bits]. destruct (hasv_uncons _ _ _ _ _ HA) as (X&A'&HX&HA'&XA). pose proof (fun E => hasv_len _ _ _ _ E HA') as ZA. clear HA.
    assert (Nq : q <> []) by (intros ->; cbn in *; lia). assert (Nr : r <> []) by (intros ->; cbn in *; lia).
    pose proof (hasv_app _ _ _ _ _ _ (hasv_tail _ _ _ _ Nr HR) (hasv_cons _ _ _ _ _ _ HX (hasv_nil _ _))) as HR1.
    pose proof (fun E => hasv_len _ _ _ _ E HR) as ZR. pose proof (fun E => hasv_len _ _ _ _ E HB) as ZB. pose proof (fun E => hasv_len _ _ _ _ E HQ) as ZQ.
    assert (Lr1 : length (tail r ++ [a]) = length bb) by (rewrite app_length; destruct r; [done|]; cbn [tail length] in *; lia).
    set (r1 := tail r ++ [a]) in *. clearbody r1.
    pose proof (fun E => hasv_len _ _ _ _ E HR1) as ZR1. cbv beta in ZR1.
    hstep h_sub_loop p Hp. destruct p as [sub cc]. destruct Hp as (S1&C1&HS1&HC1&Ls&D). cbn [fst snd] in *.
    pose proof (fun E => hasv_len _ _ _ _ E HS1) as ZS.
    hstep h_geq_loop g Hg.
    apply tri_bind. eapply tri_weaken.
    { apply (h_map2 (fun s rs => has s rs g (fun E => uv (B E) <=? uv (tail (R E) ++ [X E]))) (B_Ite g) (fun E a b => if uv (B E) <=? uv (tail (R E) ++ [X E]) then a else b)
        ltac:(intros; by eapply has_grows) ltac:(intros; by apply h_Ite) sub r1 _ _ S1 _ Sx Hg HS1 HR1). congruence. }
    intros r2 s4 rs4 G [Lr2 Hr2] _. carry G.
    pose proof (hasv_app _ _ _ _ _ _ (hasv_tail _ _ _ _ Nq HQ) (hasv_cons _ _ _ _ _ _ Hg (hasv_nil _ _))) as HQ1.
    eapply tri_weaken.
    { apply (IH (tail q ++ [g]) r2 s4 rs4 A' B _ _ (S k) Sx HA' HB HQ1 Hr2).
      - rewrite app_length. destruct q; [done|]. cbn [tail length] in *. lia.
      - lia.
      - cbn [length] in Lk. lia. }
    intros p s5 rs5 G (Q'&R'&HQ'&HR'&Lp1&Lp2&Inv). carry G. exists Q', R'. split_and!; try done. intros E P Bnz Blt HP He Hlt.
    rewrite XA. cbn [uv length]. rewrite ZA, pow2_S.
    assert (Hk : 2 * pow2 k <= pow2 (length bb)).
    { replace (length bb) with (S k + (length bb - S k))%nat by (cbn [length] in Lk; lia). rewrite pow2_add, pow2_S. pose proof (pow2_pos k). pose proof (pow2_pos (length bb - S k)). nia. }
    pose proof (uv_range (B E)) as UB. pose proof (uv_range (R E)) as UR. pose proof (uv_range (Q E)) as UQ.
    assert (Er1 : uv (tail (R E) ++ [X E]) = 2 * uv (R E) + b2z (X E)) by (apply uv_shift; [intros Z0; specialize (ZR E); rewrite Z0 in ZR; cbn in ZR; destruct r; done|rewrite ZR, Lr; lia]).
    assert (HqP : uv (Q E) < pow2 k) by (apply (div_arith _ (uv (R E)) (uv (B E)) P); lia).
    assert (Eq1 : forall g, uv (tail (Q E) ++ [g]) = 2 * uv (Q E) + b2z g) by (intros g0; apply uv_shift; [intros Z0; specialize (ZQ E); rewrite Z0 in ZQ; cbn in ZQ; destruct q; done|rewrite ZQ, Lq; lia]).
    specialize (Inv E (2 * P + b2z (X E)) Bnz Blt). cbv beta in Inv. rewrite Eq1 in Inv.
    rewrite zipw_choice in Inv by (rewrite ZS, ZR1; lia). specialize (D E). cbv beta in D. rewrite Er1 in *.
    pose proof (uv_range (S1 E)) as US. rewrite ZS, Ls in US.
    assert (Bx : 0 <= b2z (X E) <= 1) by (destruct (X E); cbn; lia).
    replace ((2 * P + b2z (X E)) * pow2 (length av) + uv (A' E)) with (P * (2 * pow2 (length av)) + (b2z (X E) * pow2 (length av) + uv (A' E))) in Inv by ring.
    apply Inv.
    + rewrite pow2_S. lia.
    + destruct (Z.leb_spec (uv (B E)) (2 * uv (R E) + b2z (X E))) as [Hge|Hlt2]; cbn [b2z].
      * destruct (C1 E); cbn [b2z] in D; [|exfalso; lia]. rewrite <- He. lia.
      * rewrite Er1. lia.
    + destruct (Z.leb_spec (uv (B E)) (2 * uv (R E) + b2z (X E))) as [Hge|Hlt2]; [|rewrite Er1; lia].
      destruct (C1 E); cbn [b2z] in D; lia.
Qed.

(** a constant power of two *)
Lemma no_ones l s rs E : st s rs -> is_scalar_list l = true -> forallb (fun f => negb (bool_decide (f = ONE))) l = true -> uv (bits s E l) = 0.
Proof.
  intros Sx. induction l as [|f l IH]; [done|]. cbn [is_scalar_list forallb]. intros H1 H2. change (b2z (den s f E) * pow2 (length (bits s E l)) + uv (bits s E l) = 0).
  apply andb_prop in H1 as [H1 H1'], H2 as [H2 H2']. rewrite IH by done. unfold is_scalar in H1.
  destruct (bool_decide_reflect (f = ONE)); [done|]. destruct (bool_decide_reflect (f = ZERO)) as [->|]; [|done]. rewrite den_ZERO. done. Qed.
Lemma power_of_two l n s rs E : st s rs -> constant_power_of_two l = Some n -> (n < length l)%nat /\ uv (bits s E l) = pow2 n.
Proof.
  intros Sx. unfold constant_power_of_two. destruct (is_scalar_list l) eqn:Hs; [|done].
  induction l as [|f l IH]; [done|]. cbn [after_one]. cbn [is_scalar_list forallb] in Hs. apply andb_prop in Hs as [Hf Hs].
  change (uv (bits s E (f :: l))) with (b2z (den s f E) * pow2 (length (bits s E l)) + uv (bits s E l)). destruct (decide (f = ONE)) as [->|Hn].
  - destruct (forallb (fun f : fml => negb (bool_decide (f = ONE))) l) eqn:Hall; [|done]. intros Hx. assert (n = length l) as -> by congruence. split; [cbn; lia|]. rewrite den_ONE. rewrite (no_ones l s rs) by done. rewrite bits_length. cbn [b2z]. lia.
  - intros H. destruct (IH Hs H) as [H1 H2]. split; [cbn; lia|]. rewrite H2. unfold is_scalar in Hf.
    destruct (bool_decide_reflect (f = ONE)); [done|]. destruct (bool_decide_reflect (f = ZERO)) as [->|]; [|done]. rewrite den_ZERO. cbn [b2z]. lia. Qed.
Lemma h_fixed av bv s rs A B : st s rs -> hasv s rs av A -> hasv s rs bv B -> length av = length bv ->
  (forall E, 2 * uv (B E) < pow2 (length bv)) ->
  tri (fixed_ext_bvdiv av bv) s rs (fun p s' rs' => exists Q R, hasv s' rs' p.1 Q /\ hasv s' rs' p.2 R /\ length p.1 = length bv /\ length p.2 = length bv /\
    forall E, uv (B E) <> 0 -> uv (Q E) = uv (A E) / uv (B E) /\ uv (R E) = uv (A E) mod uv (B E)).
Proof.
  intros Sx HA HB Hl HBt. unfold fixed_ext_bvdiv. rewrite Hl, Nat.eqb_refl. destruct (constant_power_of_two bv) as [n|] eqn:Hc.
  - apply tri_ret; [done|]. cbn [fst snd].
    pose proof (fun E => power_of_two bv n s rs E Sx Hc) as HP. assert (Hn : (n < length bv)%nat) by (apply (HP (fun _ => false))).
    rewrite <- (firstn_skipn (length bv - n) av) in HA. destruct (hasv_unapp _ _ _ _ _ HA) as (A1&A2&H1&H2&X).
    eexists _, _. split_and!; [apply hasv_app; [by apply hasv_zeros|exact H1]|apply hasv_app; [by apply hasv_zeros|exact H2]| | |].
    + rewrite app_length, repeat_length, firstn_length. lia.
    + rewrite app_length, repeat_length, skipn_length. lia.
    + intros E _. cbv beta. rewrite !uv_zeros_app, X, uv_app. rewrite (hasv_len _ _ _ _ E H2), skipn_length. replace (length av - (length bv - n))%nat with n by lia.
      assert (HBE : uv (B E) = pow2 n) by (rewrite <- (proj2 HB E); apply HP). rewrite HBE.
      pose proof (uv_range (A2 E)) as U. rewrite (hasv_len _ _ _ _ E H2), skipn_length in U. replace (length av - (length bv - n))%nat with n in U by lia.
      split; [apply Z.div_unique with (r := uv (A2 E)); lia|apply Z.mod_unique with (q := uv (A1 E)); lia].
  - eapply tri_weaken; [apply (h_div_bits bv av _ _ s rs A B (fun _ => repeat false (length bv)) (fun _ => repeat false (length bv)) 0 Sx HA HB); try (by apply hasv_zeros); try apply repeat_length; lia|].
    intros p s1 rs1 _ (Q&R&HQ&HR&L1&L2&D). exists Q, R. split_and!; try done. intros E Hnz. pose proof (uv_range (B E)). pose proof (uv_range (R E)).
    destruct (D E 0) as [D1 D2]; [done|done|rewrite pow2_0; lia|rewrite uv_zeros; lia|rewrite uv_zeros; lia|].
    split; [apply Z.div_unique with (r := uv (R E)); lia|apply Z.mod_unique with (q := uv (Q E)); lia].
Qed.

(** signs *)
Lemma pad_zero_hasv s rs n l L : st s rs -> hasv s rs l L -> hasv s rs (pad n ZERO l) (fun E => repeat false n ++ L E).
Proof. intros Sx H. apply hasv_app; [by apply hasv_zeros|done]. Qed.
Lemma div_signs d n : n <> 0 ->
  (if Bool.eqb (d <? 0) (n <? 0) then Z.abs d / Z.abs n else if Z.abs d mod Z.abs n =? 0 then - (Z.abs d / Z.abs n) else - (Z.abs d / Z.abs n) - 1) = d / n.
Proof.
  intros Hn. pose proof (Z.div_mod (Z.abs d) (Z.abs n) ltac:(lia)) as E. pose proof (Z.mod_pos_bound (Z.abs d) (Z.abs n) ltac:(lia)) as Bd.
  set (q := Z.abs d / Z.abs n) in *. set (r := Z.abs d mod Z.abs n) in *. clearbody q r.
  destruct (Z.ltb_spec d 0), (Z.ltb_spec n 0); cbn [Bool.eqb].
  - apply Z.div_unique with (r := - r); [lia|]. rewrite !Z.abs_neq in E by lia. lia.
  - rewrite Z.abs_neq, Z.abs_eq in E by lia. destruct (Z.eqb_spec r 0); [apply Z.div_unique with (r := 0); lia|apply Z.div_unique with (r := n - r); lia].
  - rewrite (Z.abs_eq d), (Z.abs_neq n) in E by lia. destruct (Z.eqb_spec r 0); [apply Z.div_unique with (r := 0); lia|apply Z.div_unique with (r := n + r); lia].
  - rewrite !Z.abs_eq in E by lia. apply Z.div_unique with (r := r); lia.
Qed.
Lemma mod_signs d n : n <> 0 ->
  (let r := Z.abs d mod Z.abs n in if r =? 0 then r else let r0 := if Bool.eqb (d <? 0) (n <? 0) then r else r - Z.abs n in if d <? 0 then - r0 else r0) = d mod n.
Proof.
  intros Hn. pose proof (div_signs d n Hn) as Dv. rewrite (Z.mod_eq d n Hn), <- Dv. clear Dv.
  pose proof (Z.div_mod (Z.abs d) (Z.abs n) ltac:(lia)) as E. cbv zeta.
  set (q := Z.abs d / Z.abs n) in *. set (r := Z.abs d mod Z.abs n) in *. clearbody q r.
  destruct (Z.ltb_spec d 0), (Z.ltb_spec n 0); cbn [Bool.eqb]; destruct (Z.eqb_spec r 0); lia.
Qed.
Lemma h_signed_div dv nv s rs D N : st s rs -> hasz s rs dv D -> hasz s rs nv N ->
  tri (signed_bvdiv dv nv) s rs (fun p s' rs' => exists Q R, hasz s' rs' p.1 Q /\ hasz s' rs' p.2 R /\
    forall E, N E <> 0 -> Q E = D E / N E /\ R E = D E mod N E).
Proof.
  intros Sx HD HN. unfold signed_bvdiv. apply tri_bind. eapply h_hd; [done|exact HD|]. intros nd _ Hnd _. apply tri_bind. eapply h_hd; [done|exact HN|]. intros nn _ Hnn _.
  zstep h_abs ad Had. destruct Had as [_ Had]. zstep h_abs an Han. destruct Han as [_ Han]. unfold zx2.
  destruct (hasz_bits _ _ _ _ Had) as (A&HA&XA), (hasz_bits _ _ _ _ Han) as (B&HB&XB).
  assert (NA : forall E, A E <> []) by (intros E Q; pose proof (hasv_len _ _ _ _ E HA) as Z0; rewrite Q in Z0; destruct Had as [N0 _]; destruct ad; done).
  assert (NB : forall E, B E <> []) by (intros E Q; pose proof (hasv_len _ _ _ _ E HB) as Z0; rewrite Q in Z0; destruct Han as [N0 _]; destruct an; done).
  assert (LA : (0 < length ad)%nat) by (destruct Had as [N0 _]; destruct ad; [done|cbn; lia]).
  pose proof (pad_zero_hasv s1 rs1 (length an - length ad) ad A Sx HA) as HA1.
  pose proof (pad_zero_hasv s1 rs1 (length ad - length an) an B Sx HB) as HB1.
  set (av := pad (length an - length ad) ZERO ad) in *. set (bv := pad (length ad - length an) ZERO an) in *.
  assert (Lav : length av = length bv) by (unfold av, bv; rewrite !pad_length; lia).
  assert (Lbv : (0 < length bv)%nat) by (unfold bv; rewrite !pad_length; lia).
  assert (VA : forall E, uv (repeat false (length an - length ad) ++ A E) = Z.abs (D E)).
  { intros E. rewrite uv_zeros_app, <- sv_nonneg, XA; [done|]. rewrite XA. lia. }
  assert (VB : forall E, uv (repeat false (length ad - length an) ++ B E) = Z.abs (N E)).
  { intros E. rewrite uv_zeros_app, <- sv_nonneg, XB; [done|]. rewrite XB. lia. }
  assert (top0 : forall (l : list bool) n, l <> [] -> 0 <= sv l -> 2 * uv (repeat false n ++ l) < pow2 (length (repeat false n ++ l))).
  { intros l n Hl Hp. rewrite uv_zeros_app, <- sv_nonneg by done. destruct l as [|b l]; [done|]. pose proof (sv_range b l).
    rewrite app_length, repeat_length. cbn [length]. rewrite pow2_add, pow2_S. pose proof (pow2_pos n). pose proof (pow2_pos (length l)). nia. }
  assert (TA : forall E, 2 * Z.abs (D E) < pow2 (length bv)).
  { intros E. rewrite <- Lav, <- (hasv_len _ _ _ _ E HA1), <- VA. apply top0; [done|]. rewrite XA. lia. }
  assert (TB : forall E, 2 * Z.abs (N E) < pow2 (length bv)).
  { intros E. rewrite <- (hasv_len _ _ _ _ E HB1), <- VB. apply top0; [done|]. rewrite XB. lia. }
  assert (HBz : hasz s1 rs1 bv (fun E => Z.abs (N E))).
  { eapply hasz_ext; [apply hasz_of; [exact HB1|by destruct bv; cbn in Lbv; [lia|]]|]. intros E. cbv beta. rewrite sv_pad_zero; [apply XB|rewrite XB; lia|done]. }
  clear NA NB LA top0 Had Han. clearbody av bv.
  apply tri_bind. eapply tri_weaken; [apply (h_fixed av bv s1 rs1 _ _ Sx HA1 HB1 Lav); intros E; cbv beta; rewrite VB; apply TB|].
  intros p s2 rs2 G (Q&R&HQ&HR&LQ&LR&QR) _. destruct p as [qr rr]. cbn [fst snd] in *. clear HA HB HA1. zcarry G.
  assert (QR' : forall E, N E <> 0 -> sv (Q E) = Z.abs (D E) / Z.abs (N E) /\ sv (R E) = Z.abs (D E) mod Z.abs (N E) /\ uv (R E) = Z.abs (D E) mod Z.abs (N E)).
  { intros E Hn. specialize (QR E). specialize (TA E). specialize (TB E). rewrite VA, VB in QR. destruct QR as [E1 E2]; [lia|].
    assert (small : forall l, length l = length bv -> 2 * uv l < pow2 (length bv) -> sv l = uv l).
    { clear - Lbv. intros [|b l] Hl; cbn [length] in *; [lia|]. rewrite <- Hl, sv_uv. cbn [uv]. rewrite pow2_S. pose proof (uv_range l). destruct b; cbn [b2z]; lia. }
    pose proof (pow2_pos (length bv)).
    pose proof (Z.mod_pos_bound (Z.abs (D E)) (Z.abs (N E)) ltac:(lia)). pose proof (hasv_len _ _ _ _ E HQ). pose proof (hasv_len _ _ _ _ E HR).
    split_and!; [|rewrite small; [done|lia|lia]|done].
    rewrite small; [done|lia|]. rewrite E1. pose proof (Z.div_le_upper_bound (Z.abs (D E)) (Z.abs (N E)) (Z.abs (D E)) ltac:(lia) ltac:(nia)). lia. }
  pose proof (hasz_of _ _ _ _ HQ ltac:(intros ->; cbn in LQ; lia)) as HQz. pose proof (hasz_of _ _ _ _ HR ltac:(intros ->; cbn in LR; lia)) as HRz. cbv beta in HQz, HRz.
  zstep h_is_zero exa Hex. zstep h_Xnor ss Hss. zstep h_negate nq Hnq. destruct Hnq as [_ Hnq]. zstep h_ite q0 Hq0. destruct Hq0 as [_ Hq0].
  zstep h_Or cc Hcc. zstep h_decrement dq Hdq. destruct Hdq as [_ Hdq]. zstep h_ite qq Hqq. destruct Hqq as [_ Hqq].
  apply tri_bind. eapply tri_weaken; [apply (h_gen_add true rr bv _ _ _ _ Sx HRz HBz); lia|]. intros rn sz rsz G [_ Hrn] _. zcarry G.
  zstep h_ite r0 Hr0. destruct Hr0 as [_ Hr0]. zstep h_negate nr Hnr. destruct Hnr as [_ Hnr]. zstep h_ite r1 Hr1. destruct Hr1 as [_ Hr1].
  zstep h_ite rf Hrf. destruct Hrf as [_ Hrf]. apply tri_ret; [done|]. cbn [fst snd]. eexists _, _. split_and!; [exact Hqq|exact Hrf|].
  intros E Hn. cbv beta. destruct (QR' E Hn) as (E1&E2&E3). rewrite E1, E2, E3. rewrite <- (div_signs _ _ Hn), <- (mod_signs _ _ Hn). cbv zeta.
  destruct (Bool.eqb (D E <? 0) (N E <? 0)), (Z.abs (D E) mod Z.abs (N E) =? 0); cbn [orb]; done.
Qed.
Lemma h_div l1 l2 s rs V1 V2 : st s rs -> hasz s rs l1 V1 -> hasz s rs l2 V2 ->
  tri (bv_div l1 l2) s rs (fun r s' rs' => exists V, minimal r /\ hasz s' rs' r V /\ forall E, V2 E <> 0 -> V E = V1 E / V2 E).
Proof.
  intros Sx H1 H2. unfold bv_div. zstep h_signed_div p Hp. destruct p as [q r]. destruct Hp as (Q&R&HQ&HR&X). apply tri_ret; [done|].
  exists Q. split_and!; [apply trim_minimal|by apply hasz_trim|]. intros E HE. by apply X. Qed.
Lemma h_mod l1 l2 s rs V1 V2 : st s rs -> hasz s rs l1 V1 -> hasz s rs l2 V2 ->
  tri (bv_mod l1 l2) s rs (fun r s' rs' => exists V, minimal r /\ hasz s' rs' r V /\ forall E, V2 E <> 0 -> V E = V1 E mod V2 E).
Proof.
  intros Sx H1 H2. unfold bv_mod. zstep h_signed_div p Hp. destruct p as [q r]. destruct Hp as (Q&R&HQ&HR&X). apply tri_ret; [done|].
  exists R. split_and!; [apply trim_minimal|by apply hasz_trim|]. intros E HE. by apply X. Qed.
