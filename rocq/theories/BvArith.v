(** bv.c: addition, negation, abs, multiplication, comparison and bitwise operations. *)
From stdpp Require Import gmap strings list.
From Coq Require Import NArith ZArith Lia.
From Verif Require Import BddModel BddDen BddHist BddThms BvModel BvBits BvTri.
Open Scope Z_scope.

Lemma h_map2 (P : bst -> list fml -> Prop) op (g : nenv -> bool -> bool -> bool) :
  (forall s rs s' rs', grows s rs s' rs' -> P s rs -> P s' rs') ->
  (forall s rs a b F G, st s rs -> P s rs -> has s rs a F -> has s rs b G ->
    tri (op a b) s rs (fun c s' rs' => has s' rs' c (fun E => g E (F E) (G E)))) ->
  forall l1 l2 s rs L1 L2, st s rs -> P s rs -> hasv s rs l1 L1 -> hasv s rs l2 L2 -> length l1 = length l2 ->
  tri (map2M op l1 l2) s rs (fun r s' rs' => length r = length l1 /\ hasv s' rs' r (fun E => zipw (g E) (L1 E) (L2 E))).
Proof.
  intros HP Hop. induction l1 as [|a l1 IH]; intros [|b l2] s rs L1 L2 Sx HPs H1 H2 Hl; try done.
  - apply tri_ret; [done|]. split; [done|]. eapply hasv_ext; [apply hasv_nil|]. intros E.
    pose proof (hasv_len _ _ _ _ E H1) as Z. destruct (L1 E); done.
  - cbn [map2M]. destruct (hasv_uncons _ _ _ _ _ H1) as (F&M1&HF&HM1&X1), (hasv_uncons _ _ _ _ _ H2) as (G&M2&HG&HM2&X2).
    clear H1 H2. apply tri_bind. eapply tri_weaken; [by apply Hop|]. intros c s1 rs1 Gr Hc _. apply (HP _ _ _ _ Gr) in HPs. carry Gr.
    apply tri_bind. eapply tri_weaken; [apply IH; [done|done|exact HM1|exact HM2|by injection Hl]|].
    intros r s2 rs2 Gr [Hlr Hr] _. carry Gr. apply tri_ret; [done|]. split; [cbn; lia|].
    eapply hasv_ext; [apply (hasv_cons _ _ _ _ _ _ Hc Hr)|]. intros E. cbn. by rewrite X1, X2.
Qed.
Lemma h_map1 (P : bst -> list fml -> Prop) op (g : nenv -> bool -> bool) :
  (forall s rs s' rs', grows s rs s' rs' -> P s rs -> P s' rs') ->
  (forall s rs a F, st s rs -> P s rs -> has s rs a F -> tri (op a) s rs (fun c s' rs' => has s' rs' c (fun E => g E (F E)))) ->
  forall l s rs L, st s rs -> P s rs -> hasv s rs l L ->
  tri (mapM1 op l) s rs (fun r s' rs' => length r = length l /\ hasv s' rs' r (fun E => map (g E) (L E))).
Proof.
  intros HP Hop. induction l as [|a l IH]; intros s rs L Sx HPs H1.
  - apply tri_ret; [done|]. split; [done|]. eapply hasv_ext; [apply hasv_nil|]. intros E.
    pose proof (hasv_len _ _ _ _ E H1) as Z. destruct (L E); done.
  - cbn [mapM1]. destruct (hasv_uncons _ _ _ _ _ H1) as (F&M1&HF&HM1&X1).
    clear H1. apply tri_bind. eapply tri_weaken; [by apply Hop|]. intros c s1 rs1 Gr Hc _. apply (HP _ _ _ _ Gr) in HPs. carry Gr.
    apply tri_bind. eapply tri_weaken; [apply IH; [done|done|exact HM1]|].
    intros r s2 rs2 Gr [Hlr Hr] _. carry Gr. apply tri_ret; [done|]. split; [cbn; lia|].
    eapply hasv_ext; [apply (hasv_cons _ _ _ _ _ _ Hc Hr)|]. intros E. cbn. by rewrite X1.
Qed.

(** if-then-else *)
Lemma h_ite_bit cond C s rs a b F G : st s rs -> has s rs cond C -> has s rs a F -> has s rs b G ->
  tri (ite_bit cond a b) s rs (fun c s' rs' => has s' rs' c (fun E => if C E then F E else G E)).
Proof.
  intros Sx HC HF HG. unfold ite_bit. hstep h_And x Hx. hstep h_Not nc Hnc. hstep h_And y Hy. hlast h_Or Hr.
  eapply has_ext; [exact Hr|]. intros E. cbn. by destruct (C E), (F E), (G E).
Qed.
Lemma zipw_ite (c : bool) l r : length l = length r -> zipw (fun a b => if c then a else b) l r = if c then l else r.
Proof. revert r. induction l as [|a l IH]; intros [|b r] H; cbn in *; try done; [by destruct c|]. rewrite IH by lia. by destruct c. Qed.
Lemma h_ite cond C l1 l2 s rs V1 V2 : st s rs -> has s rs cond C -> hasz s rs l1 V1 -> hasz s rs l2 V2 ->
  tri (ite_bv_list cond l1 l2) s rs (fun r s' rs' => minimal r /\ hasz s' rs' r (fun E => if C E then V1 E else V2 E)).
Proof.
  intros Sx HC H1 H2. unfold ite_bv_list. zstep h_sx2 p Hp. destruct p as [a b]. destruct Hp as (Ha&Hb&Hl&_&_&_). cbn [fst snd] in *.
  clear H1 H2. destruct (hasz_bits _ _ _ _ Ha) as (A&HA&XA), (hasz_bits _ _ _ _ Hb) as (B&HB&XB).
  apply tri_bind. eapply tri_weaken.
  { apply (h_map2 (fun s rs => has s rs cond C) (ite_bit cond) (fun E a b => if C E then a else b)).
    - intros. by eapply has_grows.
    - intros. by apply h_ite_bit.
    - exact Sx.
    - exact HC.
    - exact HA.
    - exact HB.
    - exact Hl. }
  intros r s1 rs1 G [Lr Hr] _. zcarry G. apply tri_ret; [done|]. split; [apply trim_minimal|].
  apply hasz_trim. eapply hasz_ext; [apply hasz_of; [exact Hr|]|].
  - intros ->. destruct Ha as [Na _]. by destruct a.
  - intros E. cbn. rewrite zipw_ite; [destruct (C E); auto|]. rewrite (hasv_len _ _ _ _ E HA), (hasv_len _ _ _ _ E HB). done.
Qed.

(** addition *)
Lemma add_bit (a b c : bool) : b2z (xorb a (xorb b c)) + 2 * b2z (a && b || (a && c || b && c)) = b2z a + b2z b + b2z c.
Proof. by destruct a, b, c. Qed.
Lemma h_add_rec neg : forall l1 l2 s rs L1 L2, st s rs -> hasv s rs l1 L1 -> hasv s rs l2 L2 -> length l1 = length l2 ->
  tri (add_rec neg l1 l2) s rs (fun p s' rs' => length p.1 = length l1 /\ exists R C, hasv s' rs' p.1 R /\ has s' rs' p.2 C /\
    forall E, uv (R E) + pow2 (length l1) * b2z (C E) = uv (L1 E) + (if neg then pow2 (length l1) - uv (L2 E) else uv (L2 E))).
Proof.
  induction l1 as [|a l1 IH]; intros [|b l2] s rs L1 L2 Sx H1 H2 Hl; try done.
  - apply tri_ret; [done|]. split; [done|]. exists (fun _ => []), (fun _ => neg). split_and!; [apply hasv_nil|by apply has_const|].
    intros E. pose proof (hasv_len _ _ _ _ E H1) as Z1. pose proof (hasv_len _ _ _ _ E H2) as Z2.
    destruct (L1 E); [|done]. destruct (L2 E); [|done]. cbn [uv length]. rewrite pow2_0. by destruct neg.
  - cbn [add_rec]. destruct (hasv_uncons _ _ _ _ _ H1) as (A&M1&HA&HM1&X1), (hasv_uncons _ _ _ _ _ H2) as (B&M2&HB&HM2&X2).
    pose proof (fun E => hasv_len _ _ _ _ E HM1) as ZM1. pose proof (fun E => hasv_len _ _ _ _ E HM2) as ZM2.
    clear H1 H2. injection Hl as Hl.
    apply tri_bind. eapply tri_weaken; [by apply (IH l2 s rs M1 M2)|]. intros [rem cin] s1 rs1 G (Lrem&R&C&HR&HC&X) _. carry G. cbn [fst snd] in *.
    apply tri_bind. apply tri_weaken with (Q := fun c s' rs' => has s' rs' c (fun E => xorb neg (B E))).
    { destruct neg; [hlast h_Not Hn; exact Hn|apply tri_ret; [done|]; eapply has_ext; [exact HB|intros E; by destruct (B E)]]. }
    intros b' s2 rs2 G Hb' _. carry G.
    hstep h_Xor x1 Hx1. hstep h_Xor x2 Hx2. hstep h_And ab Hab. hstep h_And ac Hac. hstep h_And bc Hbc. hstep h_Or s1' Hs1. hstep h_Or co Hco.
    apply tri_ret; [done|]. split; [cbn; lia|]. eexists _, _. split_and!; [apply hasv_cons; [exact Hx2|exact HR]|exact Hco|].
    intros E. cbn [length uv]. rewrite X1, X2. cbn [uv]. rewrite ZM1, ZM2, <- Hl.
    rewrite pow2_S. pose proof (add_bit (A E) (xorb neg (B E)) (C E)) as Ab. specialize (X E).
    rewrite (hasv_len _ _ _ _ E HR), Lrem.
    set (P := pow2 (length l1)) in *. set (x := b2z (xorb (A E) _)) in *. set (y := b2z (_ || _)) in *.
    assert (Bn : b2z (xorb neg (B E)) = if neg then 1 - b2z (B E) else b2z (B E)) by (by destruct neg, (B E)).
    rewrite Bn in Ab. destruct neg; nia.
Qed.
Lemma h_gen_add neg l1 l2 s rs V1 V2 : st s rs -> hasz s rs l1 V1 -> hasz s rs l2 V2 -> length l1 = length l2 ->
  tri (gen_add neg l1 l2) s rs (fun r s' rs' => minimal r /\ hasz s' rs' r (fun E => if neg then V1 E - V2 E else V1 E + V2 E)).
Proof.
  intros Sx H1 H2 Hl. unfold gen_add. destruct (hasz_bits _ _ _ _ H1) as (A&HA&XA), (hasz_bits _ _ _ _ H2) as (B&HB&XB).
  destruct l1 as [|a l1]; [by destruct H1|]. destruct l2 as [|b l2]; [done|]. clear H1 H2.
  apply tri_bind. apply (tri_lift _ a); [done|done|]. intros _. apply tri_bind. apply (tri_lift _ b); [done|done|]. intros _.
  destruct (hasv_uncons _ _ _ _ _ HA) as (F&M1&HF&HM1&X1), (hasv_uncons _ _ _ _ _ HB) as (G&M2&HG&HM2&X2).
  pose proof (fun E => hasv_len _ _ _ _ E HM1) as ZM1. pose proof (fun E => hasv_len _ _ _ _ E HM2) as ZM2.
  apply tri_bind. eapply tri_weaken.
  { apply h_add_rec; [done|apply hasv_cons; [exact HF|exact HA]|apply hasv_cons; [exact HG|exact HB]|cbn in *; lia]. }
  intros [r co] s1 rs1 Gr (Lr&R&C&HR&HC&X) _. cbn [fst snd] in *. apply tri_ret; [by eapply grows_st|]. split; [apply trim_minimal|].
  apply hasz_trim. eapply hasz_ext; [apply hasz_of; [exact HR|by intros ->]|]. intros E. cbn.
  specialize (X E). pose proof (hasv_len _ _ _ _ E HR) as ZR. rewrite Lr in ZR. cbn [length] in X, ZR, Lr, Hl.
  rewrite X1, X2 in X. specialize (XA E). specialize (XB E). rewrite X1, sv_cons in XA. rewrite X2, sv_cons in XB.
  cbn [uv length] in X. rewrite ZM1, ZM2 in *. replace (length l2) with (length l1) in * by lia. rewrite !pow2_S in X.
  destruct (R E) as [|h t]; [done|]. cbn [uv length] in *. rewrite sv_cons. pose proof (uv_range t) as Ut.
  pose proof (uv_range (M1 E)) as U1. pose proof (uv_range (M2 E)) as U2. rewrite ZM1 in U1. rewrite ZM2 in U2.
  replace (length t) with (S (length l1)) in * by lia. rewrite !pow2_S in *.
  rewrite <- XA, <- XB. clear - X Ut U1 U2. set (P := pow2 (length l1)) in *.
  destruct neg, (F E), (G E), (C E), h; cbn [b2z] in *; lia.
Qed.
Lemma hasz_ZERO s rs : st s rs -> hasz s rs [ZERO] (fun _ => 0).
Proof. intros (?&?&?). split_and!; [done|set_solver|]. intros E. cbn. rewrite den_ZERO. reflexivity. Qed.
Lemma hasz_01 s rs : st s rs -> hasz s rs [ZERO; ONE] (fun _ => 1).
Proof. intros (?&?&?). split_and!; [done|set_solver|]. intros E. cbn. rewrite den_ZERO, den_ONE. reflexivity. Qed.
Lemma h_negate l s rs V : st s rs -> hasz s rs l V ->
  tri (negate_bv_list l) s rs (fun r s' rs' => minimal r /\ hasz s' rs' r (fun E => - V E)).
Proof.
  intros Sx H. unfold negate_bv_list. pose proof (hasz_ZERO s rs Sx) as HZ. zstep h_sx2 p Hp. destruct p as [a b]. destruct Hp as (Ha&Hb&Hl&_). cbn [fst snd] in *.
  apply tri_bind. eapply tri_weaken; [apply (h_gen_add true b a); [done|exact Hb|exact Ha|done]|]. intros r s1 rs1 G [Mr Hr] _.
  apply tri_ret; [by eapply grows_st|]. split; [apply trim_minimal|]. apply hasz_trim. exact Hr.
Qed.
Lemma h_decrement l s rs V : st s rs -> hasz s rs l V ->
  tri (decrement_bv_list l) s rs (fun r s' rs' => minimal r /\ hasz s' rs' r (fun E => V E - 1)).
Proof.
  intros Sx H. unfold decrement_bv_list. pose proof (hasz_01 s rs Sx) as HZ. zstep h_sx2 p Hp. destruct p as [a b]. destruct Hp as (Ha&Hb&Hl&_). cbn [fst snd] in *.
  apply tri_bind. eapply tri_weaken; [apply (h_gen_add true a b); [done|exact Ha|exact Hb|done]|]. intros r s1 rs1 G [Mr Hr] _.
  apply tri_ret; [by eapply grows_st|]. split; [apply trim_minimal|]. apply hasz_trim. exact Hr.
Qed.
Lemma h_abs l s rs V : st s rs -> hasz s rs l V ->
  tri (abs_bv_list l) s rs (fun r s' rs' => minimal r /\ hasz s' rs' r (fun E => Z.abs (V E))).
Proof.
  intros Sx H. unfold abs_bv_list. apply tri_bind. eapply h_hd; [done|exact H|]. intros f _ Hf _.
  apply tri_bind. eapply tri_weaken; [by apply h_negate|]. intros r s1 rs1 G [Mr Hr] _. zcarry G.
  eapply tri_weaken; [apply h_ite; [done|exact Hf|exact Hr|exact H]|]. intros r' s2 rs2 G [Mr' Hr']. split; [done|].
  eapply hasz_ext; [exact Hr'|]. intros E. cbn. destruct (Z.ltb_spec (V E) 0); lia.
Qed.
Lemma h_bv_add l1 l2 s rs V1 V2 : st s rs -> hasz s rs l1 V1 -> hasz s rs l2 V2 ->
  tri (bv_add l1 l2) s rs (fun r s' rs' => minimal r /\ hasz s' rs' r (fun E => V1 E + V2 E)).
Proof.
  intros Sx H1 H2. unfold bv_add. zstep h_sx2 p Hp. destruct p as [a b]. destruct Hp as (Ha&Hb&Hl&_). cbn [fst snd] in *.
  apply tri_bind. eapply tri_weaken; [apply (h_gen_add false a b); [done|exact Ha|exact Hb|done]|]. intros r s1 rs1 G [Mr Hr] _.
  apply tri_ret; [by eapply grows_st|]. split; [apply trim_minimal|]. apply hasz_trim. exact Hr.
Qed.
Lemma h_bv_sub l1 l2 s rs V1 V2 : st s rs -> hasz s rs l1 V1 -> hasz s rs l2 V2 ->
  tri (bv_sub l1 l2) s rs (fun r s' rs' => minimal r /\ hasz s' rs' r (fun E => V1 E - V2 E)).
Proof.
  intros Sx H1 H2. unfold bv_sub. zstep h_sx2 p Hp. destruct p as [a b]. destruct Hp as (Ha&Hb&Hl&_). cbn [fst snd] in *.
  apply tri_bind. eapply tri_weaken; [apply (h_gen_add true a b); [done|exact Ha|exact Hb|done]|]. intros r s1 rs1 G [Mr Hr] _.
  apply tri_ret; [by eapply grows_st|]. split; [apply trim_minimal|]. apply hasz_trim. exact Hr.
Qed.

(** multiplication *)
Lemma uv_scale (y : bool) l : uv (map (andb y) l) = b2z y * uv l.
Proof. induction l as [|x l IH]; cbn [map uv]; [lia|]. rewrite IH, map_length. destruct y, x; cbn [andb b2z]; lia. Qed.
Lemma h_mult xv X : forall yv s rs Y, st s rs -> hasv s rs xv X -> hasv s rs yv Y ->
  tri (mult_bv_list xv yv) s rs (fun r s' rs' => hasz s' rs' r (fun E => uv (X E) * uv (Y E))).
Proof.
  induction yv as [|y yv IH]; intros s rs Y Sx HX HY.
  - apply tri_ret; [done|]. eapply hasz_ext; [by apply hasz_ZERO|]. intros E. pose proof (hasv_len _ _ _ _ E HY) as Z.
    destruct (Y E); [|done]. cbn. lia.
  - cbn [mult_bv_list]. destruct (hasv_uncons _ _ _ _ _ HY) as (F&Y'&HF&HY'&XY). clear HY.
    pose proof (fun E => hasv_len _ _ _ _ E HY') as ZY.
    apply tri_bind. eapply tri_weaken; [by apply (IH s rs Y')|]. intros rem s1 rs1 G Hrem _. zcarry G.
    apply tri_bind. eapply tri_weaken.
    { apply (h_map1 (fun s rs => has s rs y F) (B_And y) (fun E b => F E && b)).
      - intros. by eapply has_grows.
      - intros. by apply h_And.
      - exact Sx.
      - exact HF.
      - exact HX. }
    intros row s2 rs2 G [Lrow Hrow] _. zcarry G. unfold zx2.
    set (prod := ZERO :: row ++ repeat ZERO (length yv)).
    assert (Hp : hasz s2 rs2 prod (fun E => uv (X E) * (b2z (F E) * pow2 (length yv)))).
    { eapply hasz_ext; [apply hasz_of; [apply hasv_cons; [by apply has_ZERO|apply hasv_app; [exact Hrow|by apply hasv_zeros]]|done]|].
      intros E. cbv beta. rewrite sv_cons. cbn [b2z]. rewrite uv_app, uv_zeros, repeat_length. rewrite (uv_scale (F E)). ring. }
    assert (Hpad : forall n l V, hasz s2 rs2 l V -> (forall E, 0 <= V E) -> hasz s2 rs2 (pad n ZERO l) V).
    { intros n l V (N&Hl&D) HV. split_and!.
      - unfold pad. destruct n; cbn; done.
      - apply pad_sub; [apply Sx|done].
      - intros E. unfold pad. rewrite bits_app, bits_zeros. rewrite sv_pad_zero; [apply D|rewrite D; apply HV|by destruct l]. }
    assert (0 <= pow2 (length yv)) by (pose proof (pow2_pos (length yv)); lia).
    apply tri_bind. eapply tri_weaken.
    { apply (h_gen_add false); [done| | |].
      - apply Hpad; [exact Hp|]. intros E. pose proof (uv_range (X E)). apply Z.mul_nonneg_nonneg; [lia|destruct (F E); cbn [b2z]; lia].
      - apply Hpad; [exact Hrem|]. intros E. pose proof (uv_range (X E)). pose proof (uv_range (Y' E)). apply Z.mul_nonneg_nonneg; lia.
      - rewrite !pad_length. lia. }
    intros r s3 rs3 G [Mr Hr] _. apply tri_ret; [by eapply grows_st|]. apply hasz_trim. eapply hasz_ext; [exact Hr|].
    intros E. cbn. rewrite XY. cbn [uv]. rewrite ZY. ring.
Qed.
Lemma h_bv_mul l1 l2 s rs V1 V2 : st s rs -> hasz s rs l1 V1 -> hasz s rs l2 V2 ->
  tri (bv_mul l1 l2) s rs (fun r s' rs' => minimal r /\ hasz s' rs' r (fun E => V1 E * V2 E)).
Proof.
  intros Sx. revert l1 l2 V1 V2. assert (Main : forall av bv V1 V2, hasz s rs av V1 -> hasz s rs bv V2 ->
    tri (let* neg_a := hdM av in let* abs_av := abs_bv_list av in let* neg_b := hdM bv in let* abs_bv := abs_bv_list bv in
         let* prod := mult_bv_list abs_av abs_bv in
         let abs_res := ZERO :: prod in
         let* neg := B_Xor neg_a neg_b in
         let* neg_res := negate_bv_list abs_res in
         let** (abs_res, neg_res) := sx2 abs_res neg_res in
         let* r := ite_bv_list neg neg_res abs_res in
         ret (trim_bv r)) s rs (fun r s' rs' => minimal r /\ hasz s' rs' r (fun E => V1 E * V2 E))).
  { intros av bv V1 V2 H1 H2. apply tri_bind. eapply h_hd; [done|exact H1|]. intros na _ Hna _.
    zstep h_abs aa Haa. destruct Haa as [_ Haa]. apply tri_bind. eapply h_hd; [done|exact H2|]. intros nb _ Hnb _.
    zstep h_abs ab Hab. destruct Hab as [_ Hab].
    destruct (hasz_bits _ _ _ _ Haa) as (A&HA&XA), (hasz_bits _ _ _ _ Hab) as (B&HB&XB).
    apply tri_bind. eapply tri_weaken; [apply (h_mult aa A ab); [done|exact HA|exact HB]|]. intros prod s2 rs2 G Hprod _. zcarry G. cbv zeta.
    assert (Hres : hasz s2 rs2 (ZERO :: prod) (fun E => uv (A E) * uv (B E))).
    { destruct Hprod as (N&Hl&D). split_and!; [done|apply sub_cons; split; [apply Sx|done]|]. intros E.
      replace (bits s2 E (ZERO :: prod)) with (repeat false 1 ++ bits s2 E prod) by (cbn; by rewrite den_ZERO).
      rewrite sv_pad_zero; [apply D| |by destruct prod]. rewrite D. pose proof (uv_range (A E)). pose proof (uv_range (B E)). nia. }
    zstep h_Xor ng Hng. zstep h_negate nr Hnr. destruct Hnr as [_ Hnr]. zstep h_sx2 p Hp. destruct p as [ar nr']. destruct Hp as (Har&Hnr'&_). cbn [fst snd] in *.
    zstep h_ite r Hr. destruct Hr as [Mr Hr]. apply tri_ret; [done|]. split; [apply trim_minimal|]. apply hasz_trim.
    eapply hasz_ext; [exact Hr|]. intros E. cbv beta. specialize (XA E). specialize (XB E).
    rewrite !sv_nonneg in XA, XB by lia. rewrite XA, XB. destruct (Z.ltb_spec (V1 E) 0), (Z.ltb_spec (V2 E) 0); cbn [xorb]; nia. }
  intros l1 l2 V1 V2 H1 H2. unfold bv_mul. destruct (length l1 <? length l2)%nat.
  - eapply tri_weaken; [by apply Main|]. intros r s' rs' _ [M H]. split; [done|]. eapply hasz_ext; [exact H|]. intros E. cbn. lia.
  - by apply Main.
Qed.

(** comparison *)
Lemma h_less_rec : forall l1 l2 s rs L1 L2, st s rs -> hasv s rs l1 L1 -> hasv s rs l2 L2 -> length l1 = length l2 ->
  tri (less_rec l1 l2) s rs (fun c s' rs' => has s' rs' c (fun E => uv (L1 E) <? uv (L2 E))).
Proof.
  induction l1 as [|a l1 IH]; intros [|b l2] s rs L1 L2 Sx H1 H2 Hl; try done.
  - apply tri_ret; [done|]. eapply has_ext; [by apply has_ZERO|]. intros E.
    pose proof (hasv_len _ _ _ _ E H1) as Z1. pose proof (hasv_len _ _ _ _ E H2) as Z2.
    destruct (L1 E); [|done]. destruct (L2 E); [|done]. done.
  - cbn [less_rec]. destruct (hasv_uncons _ _ _ _ _ H1) as (A&M1&HA&HM1&X1), (hasv_uncons _ _ _ _ _ H2) as (B&M2&HB&HM2&X2).
    pose proof (fun E => hasv_len _ _ _ _ E HM1) as ZM1. pose proof (fun E => hasv_len _ _ _ _ E HM2) as ZM2.
    clear H1 H2. injection Hl as Hl.
    apply tri_bind. eapply tri_weaken; [by apply (IH l2 s rs M1 M2)|]. intros rem s1 rs1 G Hrem _. carry G.
    hstep h_Xnor ab Hab. hstep h_And abrem Habrem. hstep h_Not na Hna. hstep h_And nab Hnab. hlast h_Or Hr.
    eapply has_ext; [exact Hr|]. intros E. cbv beta. rewrite X1, X2. cbn [uv]. rewrite ZM1, ZM2, <- Hl.
    pose proof (uv_range (M1 E)) as U1. pose proof (uv_range (M2 E)) as U2. rewrite ZM1 in U1. rewrite ZM2, <- Hl in U2.
    destruct (Z.ltb_spec (uv (M1 E)) (uv (M2 E))), (A E), (B E); cbn [negb andb orb Bool.eqb b2z]; symmetry; first [apply Z.ltb_lt; lia|apply Z.ltb_ge; lia].
Qed.
Lemma h_less_than l1 l2 s rs V1 V2 : st s rs -> hasz s rs l1 V1 -> hasz s rs l2 V2 ->
  tri (less_than_bv_list l1 l2) s rs (fun c s' rs' => has s' rs' c (fun E => V1 E <? V2 E)).
Proof.
  intros Sx H1 H2. unfold less_than_bv_list. zstep h_sx2 p Hp. destruct p as [a b]. destruct Hp as (Ha&Hb&Hl&_). cbn [fst snd] in *.
  clear H1 H2. apply tri_bind. eapply h_hd; [done|exact Ha|]. intros n1 _ Hn1 _. apply tri_bind. eapply h_hd; [done|exact Hb|]. intros n2 _ Hn2 _.
  destruct (hasz_bits _ _ _ _ Ha) as (A&HA&XA), (hasz_bits _ _ _ _ Hb) as (B&HB&XB).
  pose proof (fun E => hasv_len _ _ _ _ E HA) as ZA. pose proof (fun E => hasv_len _ _ _ _ E HB) as ZB.
  zstep h_less_rec raw Hraw. pose proof (has_ONE _ _ Sx) as H1. pose proof (has_ZERO _ _ Sx) as H0.
  zstep h_Ite x Hx. zstep h_Ite y Hy. zlast h_Ite Hr. eapply has_ext; [exact Hr|]. intros E. cbv beta. rewrite <- XA, <- XB.
  specialize (ZA E). specialize (ZB E). destruct Ha as [Na _]. destruct (A E) as [|x1 l]; [by destruct a|]. destruct (B E) as [|y1 r]; [cbn in *; lia|].
  cbn [length] in *. rewrite <- !sv_sign. rewrite !sv_cons. cbn [uv].
  pose proof (uv_range l). pose proof (uv_range r). replace (length l) with (length r) in * by lia.
  destruct x1, y1; cbn [b2z]; try reflexivity; symmetry;
    first [apply Z.ltb_lt; lia|apply Z.ltb_ge; lia|
      destruct (Z.ltb_spec (1 * pow2 (length r) + uv l) (1 * pow2 (length r) + uv r)); first [apply Z.ltb_lt; lia|apply Z.ltb_ge; lia]|
      destruct (Z.ltb_spec (0 * pow2 (length r) + uv l) (0 * pow2 (length r) + uv r)); first [apply Z.ltb_lt; lia|apply Z.ltb_ge; lia]].
Qed.
Lemma h_less l1 l2 s rs V1 V2 : st s rs -> hasz s rs l1 V1 -> hasz s rs l2 V2 ->
  tri (bv_less l1 l2) s rs (fun c s' rs' => has s' rs' c (fun E => V1 E <? V2 E)).
Proof. apply h_less_than. Qed.
Lemma h_greater l1 l2 s rs V1 V2 : st s rs -> hasz s rs l1 V1 -> hasz s rs l2 V2 ->
  tri (bv_greater l1 l2) s rs (fun c s' rs' => has s' rs' c (fun E => V2 E <? V1 E)).
Proof. intros. by apply h_less_than. Qed.
Lemma h_leq l1 l2 s rs V1 V2 : st s rs -> hasz s rs l1 V1 -> hasz s rs l2 V2 ->
  tri (bv_leq l1 l2) s rs (fun c s' rs' => has s' rs' c (fun E => V1 E <=? V2 E)).
Proof.
  intros Sx H1 H2. unfold bv_leq. apply tri_bind. eapply tri_weaken; [by apply (h_less_than l2 l1 s rs V2 V1)|]. intros c s1 rs1 G Hc _. zcarry G.
  zlast h_Not Hr. eapply has_ext; [exact Hr|]. intros E. cbv beta. by rewrite Z.leb_antisym.
Qed.
Lemma h_geq l1 l2 s rs V1 V2 : st s rs -> hasz s rs l1 V1 -> hasz s rs l2 V2 ->
  tri (bv_geq l1 l2) s rs (fun c s' rs' => has s' rs' c (fun E => V2 E <=? V1 E)).
Proof.
  intros Sx H1 H2. unfold bv_geq. zstep h_less_than c Hc.
  zlast h_Not Hr. eapply has_ext; [exact Hr|]. intros E. cbv beta. by rewrite Z.leb_antisym.
Qed.

(** equality *)
Lemma h_eq_loop : forall l1 l2 res R s rs L1 L2, st s rs -> has s rs res R -> hasv s rs l1 L1 -> hasv s rs l2 L2 -> length l1 = length l2 ->
  tri (eq_loop res l1 l2) s rs (fun c s' rs' => has s' rs' c (fun E => R E && bool_decide (L1 E = L2 E))).
Proof.
  induction l1 as [|a l1 IH]; intros [|b l2] res R s rs L1 L2 Sx HR H1 H2 Hl; try done.
  - apply tri_ret; [done|]. eapply has_ext; [exact HR|]. intros E.
    pose proof (hasv_len _ _ _ _ E H1) as Z1. pose proof (hasv_len _ _ _ _ E H2) as Z2.
    destruct (L1 E); [|done]. destruct (L2 E); [|done]. by destruct (R E).
  - cbn [eq_loop]. destruct (hasv_uncons _ _ _ _ _ H1) as (A&M1&HA&HM1&X1), (hasv_uncons _ _ _ _ _ H2) as (B&M2&HB&HM2&X2).
    clear H1 H2. injection Hl as Hl. hstep h_Xnor e He. hstep h_And r Hr.
    eapply tri_weaken; [by apply (IH l2 r _ s1 rs1 M1 M2 Sx Hr)|]. intros c s2 rs2 G Hc. eapply has_ext; [exact Hc|]. intros E. cbv beta.
    rewrite X1, X2. rewrite <- andb_assoc. f_equal.
    destruct (bool_decide_reflect (A E :: M1 E = B E :: M2 E)) as [Q|Q].
    + injection Q as -> ->. rewrite bool_decide_eq_true_2 by done. by destruct (B E).
    + case_bool_decide as Q2; [|by rewrite andb_false_r]. destruct (A E) eqn:EA, (B E) eqn:EB; try done; exfalso; apply Q; congruence.
Qed.
Lemma pad_hasz s rs n f l V : head l = Some f -> hasz s rs l V -> hasz s rs (pad n f l) V.
Proof.
  intros Hh (N&Hl&D). destruct l as [|g l]; [done|]. injection Hh as ->. split_and!.
  - unfold pad. destruct n; cbn; done.
  - apply pad_sub; set_solver.
  - intros E. unfold pad. rewrite bits_app, bits_rep. rewrite <- D. apply sv_rep.
Qed.
Lemma h_bv_eq l1 l2 s rs V1 V2 : st s rs -> hasz s rs l1 V1 -> hasz s rs l2 V2 ->
  tri (bv_eq l1 l2) s rs (fun c s' rs' => has s' rs' c (fun E => V1 E =? V2 E)).
Proof.
  intros Sx. revert l1 l2 V1 V2. assert (Main : forall l1 l2 V1 V2, hasz s rs l1 V1 -> hasz s rs l2 V2 -> (length l1 <= length l2)%nat ->
    tri (let* b1 := hdM l1 in eq_loop ONE (pad (length l2 - length l1) b1 l1) l2) s rs (fun c s' rs' => has s' rs' c (fun E => V1 E =? V2 E))).
  { intros l1 l2 V1 V2 H1 H2 Hle. apply tri_bind. eapply h_hd; [done|exact H1|]. intros b1 Hh Hb1 _.
    pose proof (pad_hasz s rs (length l2 - length l1) b1 l1 V1 Hh H1) as Hp.
    destruct (hasz_bits _ _ _ _ Hp) as (A&HA&XA), (hasz_bits _ _ _ _ H2) as (B&HB&XB).
    eapply tri_weaken; [apply (h_eq_loop _ l2 ONE (fun _ => true) s rs A B Sx); [by apply has_ONE|done|done|rewrite pad_length; lia]|].
    intros c s1 rs1 G Hc. eapply has_ext; [exact Hc|]. intros E. cbn [andb]. rewrite <- XA, <- XB.
    case_bool_decide as Q; symmetry; [apply Z.eqb_eq; by rewrite Q|apply Z.eqb_neq]. intros X. apply Q. apply sv_inj; [|done].
    rewrite (hasv_len _ _ _ _ E HA), (hasv_len _ _ _ _ E HB), pad_length. lia. }
  intros l1 l2 V1 V2 H1 H2. unfold bv_eq. destruct (Nat.ltb_spec (length l2) (length l1)).
  - eapply tri_weaken; [apply (Main l2 l1 V2 V1); [done|done|lia]|]. intros c s1 rs1 _ Hc. eapply has_ext; [exact Hc|]. intros E. apply Z.eqb_sym.
  - by apply Main.
Qed.
(** identity: all assignments at once *)
Lemma identical_spec l1 l2 s rs V1 V2 : st s rs -> hasz s rs l1 V1 -> hasz s rs l2 V2 ->
  exists c, bv_identical l1 l2 = Some c /\ (c = ONE <-> forall E, V1 E = V2 E) /\ (c = ONE \/ c = ZERO).
Proof.
  intros Sx. revert l1 l2 V1 V2. assert (Main : forall l1 l2 V1 V2, hasz s rs l1 V1 -> hasz s rs l2 V2 -> (length l1 <= length l2)%nat ->
    exists c, match head l1 with None => None | Some b1 => Some (if decide (pad (length l2 - length l1) b1 l1 = l2) then ONE else ZERO) end = Some c /\
      (c = ONE <-> forall E, V1 E = V2 E) /\ (c = ONE \/ c = ZERO)).
  { intros l1 l2 V1 V2 H1 H2 Hle. destruct (head l1) as [b1|] eqn:Hh; [|by destruct H1 as [? _], l1].
    pose proof (pad_hasz s rs (length l2 - length l1) b1 l1 V1 Hh H1) as Hp. eexists. split; [reflexivity|].
    destruct (decide (pad (length l2 - length l1) b1 l1 = l2)) as [Q|Q]; (split; [|by auto]).
    - split; [|done]. intros _ E. destruct Hp as (_&_&D), H2 as (_&_&D2). by rewrite <- D, <- D2, Q.
    - split; [done|]. intros X. exfalso. apply Q. destruct Hp as (_&Hs&D), H2 as (_&Hs2&D2).
      assert (Hb : forall E, bits s E (pad (length l2 - length l1) b1 l1) = bits s E l2).
      { intros E. apply sv_inj; [rewrite !bits_length, pad_length; lia|]. by rewrite D, D2. }
      revert Hb Hs Hs2. generalize (pad (length l2 - length l1) b1 l1) as u. generalize l2 as v. clear - Sx.
      induction v as [|g v IH]; intros [|f u] Hb Hs Hs2; try done; [specialize (Hb (fun _ => false)); done|specialize (Hb (fun _ => false)); done|].
      apply sub_cons in Hs as [Hf Hu], Hs2 as [Hg Hv]. f_equal.
      + apply (thm_canon s rs f g); [apply Sx|done|done|]. intros E. specialize (Hb E). by injection Hb.
      + apply IH; [|done|done]. intros E. specialize (Hb E). by injection Hb. }
  intros l1 l2 V1 V2 H1 H2. unfold bv_identical. destruct (Nat.ltb_spec (length l2) (length l1)).
  - destruct (Main l2 l1 V2 V1 H2 H1 ltac:(lia)) as (c&E&X&Y). exists c. split_and!; [done| |done]. rewrite X. split; intros; done.
  - by apply Main.
Qed.

(** bitwise operations *)
Lemma h_bitwise op o (f : Z -> Z -> Z) l1 l2 s rs V1 V2 :
  op = op_fn o -> (forall x y n, 0 <= n -> Z.testbit (f x y) n = op_sem o (Z.testbit x n) (Z.testbit y n)) ->
  st s rs -> hasz s rs l1 V1 -> hasz s rs l2 V2 ->
  tri (bv_bitwise op l1 l2) s rs (fun r s' rs' => minimal r /\ hasz s' rs' r (fun E => f (V1 E) (V2 E))).
Proof.
  intros -> Hf Sx H1 H2. unfold bv_bitwise. zstep h_sx2 p Hp. destruct p as [a b]. destruct Hp as (Ha&Hb&Hl&_&_&_). cbn [fst snd] in *.
  clear H1 H2. destruct (hasz_bits _ _ _ _ Ha) as (A&HA&XA), (hasz_bits _ _ _ _ Hb) as (B&HB&XB).
  apply tri_bind. eapply tri_weaken.
  { apply (h_map2 (fun s rs => True) (op_fn o) (fun E => op_sem o)); [done| |exact Sx|exact I|exact HA|exact HB|exact Hl].
    intros. by apply h_op. }
  intros r s1 rs1 G [Lr Hr] _. zcarry G. apply tri_ret; [done|]. split; [apply trim_minimal|].
  destruct Ha as [Na _]. apply hasz_trim. eapply hasz_ext; [apply hasz_of; [exact Hr|]|].
  - intros ->. by destruct a.
  - intros E. cbv beta. pose proof (hasv_len _ _ _ _ E HA) as ZA. pose proof (hasv_len _ _ _ _ E HB) as ZB.
    rewrite (sv_zipw f) by (first [done|lia|by intros Q; rewrite Q in ZA; destruct a]). by rewrite XA, XB.
Qed.
Lemma h_AND l1 l2 s rs V1 V2 : st s rs -> hasz s rs l1 V1 -> hasz s rs l2 V2 ->
  tri (bv_AND l1 l2) s rs (fun r s' rs' => minimal r /\ hasz s' rs' r (fun E => Z.land (V1 E) (V2 E))).
Proof. apply (h_bitwise B_And And Z.land); [done|]. intros. apply Z.land_spec. Qed.
Lemma h_OR l1 l2 s rs V1 V2 : st s rs -> hasz s rs l1 V1 -> hasz s rs l2 V2 ->
  tri (bv_OR l1 l2) s rs (fun r s' rs' => minimal r /\ hasz s' rs' r (fun E => Z.lor (V1 E) (V2 E))).
Proof. apply (h_bitwise B_Or Or Z.lor); [done|]. intros. apply Z.lor_spec. Qed.
Lemma h_XOR l1 l2 s rs V1 V2 : st s rs -> hasz s rs l1 V1 -> hasz s rs l2 V2 ->
  tri (bv_XOR l1 l2) s rs (fun r s' rs' => minimal r /\ hasz s' rs' r (fun E => Z.lxor (V1 E) (V2 E))).
Proof. apply (h_bitwise B_Xor Xor Z.lxor); [done|]. intros. apply Z.lxor_spec. Qed.
Lemma h_XNOR l1 l2 s rs V1 V2 : st s rs -> hasz s rs l1 V1 -> hasz s rs l2 V2 ->
  tri (bv_XNOR l1 l2) s rs (fun r s' rs' => minimal r /\ hasz s' rs' r (fun E => Z.lnot (Z.lxor (V1 E) (V2 E)))).
Proof.
  apply (h_bitwise B_Xnor Xnor (fun x y => Z.lnot (Z.lxor x y))); [done|]. intros. cbn [op_sem].
  rewrite Z.lnot_spec, Z.lxor_spec by lia. by destruct (Z.testbit x n), (Z.testbit y n). Qed.
Lemma h_NOT l s rs V : st s rs -> hasz s rs l V ->
  tri (bv_NOT l) s rs (fun r s' rs' => minimal r /\ hasz s' rs' r (fun E => Z.lnot (V E))).
Proof.
  intros Sx H. unfold bv_NOT. destruct (hasz_bits _ _ _ _ H) as (A&HA&XA). destruct H as [N _].
  apply tri_bind. eapply tri_weaken.
  { apply (h_map1 (fun s rs => True) B_Not (fun E => negb)); [done| |exact Sx|exact I|exact HA]. intros. by apply h_Not. }
  intros r s1 rs1 G [Lr Hr] _. zcarry G. apply tri_ret; [done|]. split; [apply trim_minimal|].
  apply hasz_trim. eapply hasz_ext; [apply hasz_of; [exact Hr|]|].
  - intros ->. by destruct l.
  - intros E. cbv beta. pose proof (hasv_len _ _ _ _ E HA) as ZA.
    change (map (fun b => negb b) (A E)) with (map negb (A E)).
    rewrite sv_not by (intros Q; rewrite Q in ZA; by destruct l). rewrite XA. unfold Z.lnot. lia.
Qed.
(** zero extension: the vector as an unsigned number *)
Lemma h_ZX l s rs L : st s rs -> hasv s rs l L -> hasz s rs (bv_ZX l) (fun E => uv (L E)) /\ minimal (bv_ZX l).
Proof.
  intros Sx H. split; [|apply trim_minimal]. unfold bv_ZX. do 2 apply hasz_trim.
  eapply hasz_ext; [apply hasz_of; [apply hasv_cons; [by apply has_ZERO|exact H]|done]|]. intros E. cbv beta. rewrite sv_cons. cbn [b2z]. lia.
Qed.
(** shifts *)
Lemma h_shift_left l n s rs V : st s rs -> hasz s rs l V -> hasz s rs (shift_left l n) (fun E => V E * 2 ^ Z.of_nat n).
Proof.
  intros Sx H. destruct (hasz_bits _ _ _ _ H) as (A&HA&XA). destruct H as [N _]. unfold shift_left.
  eapply hasz_ext; [apply hasz_of; [apply hasv_app; [exact HA|by apply hasv_zeros]|by destruct l]|]. intros E. cbv beta. rewrite <- XA.
  pose proof (hasv_len _ _ _ _ E HA) as ZA. destruct (A E) as [|b r]; [by destruct l|]. cbn [app]. rewrite sv_app, uv_zeros, repeat_length.
  rewrite Z.add_0_r. reflexivity.
Qed.
Lemma sv_prefix b l r : sv (b :: l) = sv (b :: l ++ r) / pow2 (length r).
Proof.
  rewrite sv_app. pose proof (uv_range r). rewrite Z.div_add_l by (pose proof (pow2_pos (length r)); lia). rewrite Z.div_small by lia. lia. Qed.
Lemma h_ashr l cnt s rs V : st s rs -> hasz s rs l V -> 0 <= cnt ->
  tri (bv_ashr l cnt) s rs (fun r s' rs' => exists v, r = Some v /\ hasz s' rs' v (fun E => V E / 2 ^ cnt) /\ (minimal l -> minimal v)).
Proof.
  intros Sx H Hc. unfold bv_ashr. destruct (Z.ltb_spec cnt 0); [lia|]. destruct (Z.eqb_spec cnt 0) as [->|].
  { apply tri_ret; [done|]. exists l. split_and!; [done| |done]. eapply hasz_ext; [exact H|]. intros E. cbv beta. by rewrite Z.div_1_r. }
  destruct (hasz_bits _ _ _ _ H) as (A&HA&XA). destruct H as [N _].
  destruct l as [|f l]; [done|]. destruct (hasv_uncons _ _ _ _ _ HA) as (F&M1&HF&HM1&X1).
  pose proof (fun E => hasv_len _ _ _ _ E HM1) as ZM.
  destruct (Z.leb_spec (Z.of_nat (length (f :: l))) cnt) as [Hle|Hlt].
  - apply tri_bind. apply (tri_lift _ f); [done|done|]. intros _. apply tri_ret; [done|]. exists [f]. split_and!; [done| |done].
    eapply hasz_ext; [apply hasz_of; [apply hasv_cons; [exact HF|apply hasv_nil]|done]|]. intros E. cbv beta. rewrite <- XA, X1.
    pose proof (sv_range (F E) (M1 E)) as Rg. pose proof (sv_sign (F E) (M1 E)) as Sg. rewrite ZM in Rg. cbn [length] in Hle.
    assert (Hp : pow2 (length l) <= 2 ^ cnt) by (rewrite pow2_eq; apply Z.pow_le_mono_r; lia).
    rewrite sv_cons. cbn [uv length]. rewrite pow2_0. rewrite Sg at 1. destruct (Z.ltb_spec (sv (F E :: M1 E)) 0); cbn [b2z].
    + apply Z.div_unique with (r := sv (F E :: M1 E) + 2 ^ cnt); lia.
    + apply Z.div_unique with (r := sv (F E :: M1 E)); lia.
  - apply tri_ret; [done|]. eexists. split_and!; [reflexivity| |intros _; apply trim_minimal]. apply hasz_trim.
    set (k := (length (f :: l) - Z.to_nat cnt)%nat). assert (Hk : exists k', k = S k' /\ (k' <= length l)%nat) by (exists (k - 1)%nat; cbn [length] in *; lia).
    destruct Hk as (k'&Ek&Hk'). rewrite Ek. cbn [firstn].
    rewrite <- (firstn_skipn k' l) in HM1. destruct (hasv_unapp _ _ _ _ _ HM1) as (P&Q&HP&HQ&XQ).
    eapply hasz_ext; [apply hasz_of; [apply hasv_cons; [exact HF|exact HP]|done]|]. intros E. cbv beta. rewrite <- XA, X1, XQ.
    rewrite (sv_prefix _ (P E) (Q E)). f_equal. rewrite (hasv_len _ _ _ _ E HQ), skipn_length.
    rewrite pow2_eq. f_equal. cbn [length] in *. lia.
Qed.
