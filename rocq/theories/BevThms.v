(** Proofs for C64. *)
From stdpp Require Import list.
From Coq Require Import List Arith ZArith Lia Bool.
Import ListNotations.
From Verif Require Import BvBits BevModel BevSpec.
From Verif Require BvArith BvDiv.
Open Scope Z_scope.

Lemma unsigned_fold l : forall n, fold_left (fun n b => 2 * n + bitval b) l n = n * pow2 (length l) + uv l.
Proof. induction l as [|b l IH]; intros n; cbn [fold_left uv length]; [rewrite pow2_0; lia|]. rewrite IH, pow2_S. unfold bitval, b2z. destruct b; lia. Qed.
Lemma unsigned_uv l : unsigned l = uv l.
Proof. unfold unsigned. rewrite unsigned_fold. lia. Qed.
Lemma signed_sv l : signed l = sv l.
Proof. destruct l as [|b l]; [done|]. cbn [signed sv]. rewrite unsigned_uv, pow2_eq. done. Qed.

Lemma map_repeat {X Y} (f : X -> Y) x n : map f (repeat x n) = repeat (f x) n.
Proof. induction n as [|n IH]; cbn; [done|]. by rewrite IH. Qed.

Section T.
Context {A : alg}.
Notation vec := (list (node A)).
Notation env := (node A -> bool).
Definition hz (l : vec) (V : env -> Z) : Prop := l <> [] /\ forall val, sound A val -> sv (map val l) = V val.
Definition hb (f : node A) (B : env -> bool) : Prop := forall val, sound A val -> val f = B val.

Lemma hz_ext l V V' : hz l V -> (forall val, sound A val -> V val = V' val) -> hz l V'.
Proof. intros [N H] E. split; [done|]. intros val S. rewrite H by done. by apply E. Qed.
Lemma trim_cons f g l : @trim_bev A (f :: g :: l) = if same f g then trim_bev (g :: l) else f :: g :: l.
Proof. reflexivity. Qed.
Lemma trim_nil l : @trim_bev A l = [] -> l = [].
Proof. induction l as [|f l IH]; [done|]. destruct l as [|g l]; [done|]. rewrite trim_cons. destruct (same f g); [|done]. intros H. by apply IH in H. Qed.
Lemma trim_sv val l : sound A val -> sv (map val (trim_bev l)) = sv (map val l).
Proof.
  intros S. induction l as [|f l IH]; [done|]. destruct l as [|g l]; [done|]. rewrite trim_cons. destruct (same f g) eqn:E; [|done].
  rewrite IH. cbn [map]. rewrite (val_same _ _ S _ _ E). by rewrite sv_dup. Qed.
Lemma trim_minimal l : minimal (@trim_bev A l).
Proof. induction l as [|f l IH]; [done|]. destruct l as [|g l]; [done|]. rewrite trim_cons. destruct (same f g) eqn:E; [done|]. exact E. Qed.
Lemma hz_trim l V : hz l V -> hz (trim_bev l) V.
Proof. intros [N H]. split; [intros E; by apply trim_nil in E|]. intros val S. rewrite trim_sv by done. by apply H. Qed.
Lemma hz_hd l V : hz l V -> exists f, hd_error l = Some f /\ hb f (fun val => V val <? 0).
Proof.
  intros [N H]. destruct l as [|f l]; [done|]. exists f. split; [done|]. intros val S. rewrite <- (H val S). cbn [map]. apply sv_sign. Qed.
Lemma sx1_spec n l V : hz l V -> exists r, sx1 n l = Some r /\ length r = Nat.max n (length l) /\ hz r V.
Proof.
  intros [N H]. unfold sx1. destruct l as [|f l]; [done|]. cbn [hd_error].
  destruct (n - length (f :: l))%nat as [|k] eqn:E.
  - eexists. split; [done|]. split; [lia|done].
  - eexists. split; [done|]. split; [rewrite app_length, repeat_length; lia|]. split; [done|]. intros val S. rewrite <- (H val S).
    rewrite map_app, map_repeat. cbn [map]. apply sv_rep. Qed.
Lemma sx2_spec l1 l2 V1 V2 : hz l1 V1 -> hz l2 V2 -> exists a b, sx2 l1 l2 = Some (a, b) /\ length a = length b /\ hz a V1 /\ hz b V2.
Proof.
  intros H1 H2. destruct (sx1_spec (length l2) l1 V1 H1) as (a&Ea&La&Ha), (sx1_spec (length l1) l2 V2 H2) as (b&Eb&Lb&Hb).
  exists a, b. unfold sx2. rewrite Ea, Eb. split; [done|]. split; [lia|done]. Qed.
Lemma map2_spec op a b : length a = length b -> exists r, map2 op a b = Some r /\ length r = length a /\
  forall (g : env -> bool -> bool -> bool) val, (forall x y, val (op x y) = g val (val x) (val y)) -> map val r = zipw (g val) (map val a) (map val b).
Proof.
  revert b. induction a as [|x a IH]; intros [|y b] H; try done; [by exists []|]. injection H as H. destruct (IH b H) as (r&E&L&X).
  exists (op x y :: r). cbn [map2]. rewrite E. split; [done|]. split; [cbn; lia|]. intros g val Hg. cbn [map zipw]. rewrite Hg. f_equal. by apply X. Qed.
Lemma ite_spec c C l1 l2 V1 V2 : hb c C -> hz l1 V1 -> hz l2 V2 ->
  exists r, ite_bev_list c l1 l2 = Some r /\ minimal r /\ hz r (fun val => if C val then V1 val else V2 val).
Proof.
  intros Hc H1 H2. unfold ite_bev_list. destruct (sx2_spec l1 l2 V1 V2 H1 H2) as (a&b&E&L&[Na Ha]&[Nb Hb]). rewrite E. cbn [bnd].
  destruct (map2_spec (fun nb pb => Or (And c nb) (And (Not c) pb)) a b L) as (r&Er&Lr&X). rewrite Er. cbn [bnd]. eexists. split; [done|].
  split; [apply trim_minimal|]. apply hz_trim. split; [intros ->; by destruct a|]. intros val S.
  rewrite (X (fun val x y => if C val then x else y)).
  - rewrite BvDiv.zipw_choice by (rewrite !map_length; done). destruct (C val); [by apply Ha|by apply Hb].
  - intros x y. rewrite (val_Or _ _ S), !(val_And _ _ S), (val_Not _ _ S), (Hc val S). by destruct (C val), (val x), (val y). Qed.
Lemma add_rec_spec neg l1 : forall l2, length l1 = length l2 -> exists r c, @add_rec A neg l1 l2 = Some (r, c) /\ length r = length l1 /\
  forall val, sound A val -> uv (map val r) + b2z (val c) * pow2 (length l1) = uv (map val l1) + (if neg then pow2 (length l1) - uv (map val l2) else uv (map val l2)).
Proof.
  induction l1 as [|a l1 IH]; intros [|b l2] H; try done.
  - exists [], (if neg then One else Zero). split; [done|]. split; [done|]. intros val S. cbn. rewrite pow2_0. destruct neg; [rewrite (val_One _ _ S)|rewrite (val_Zero _ _ S)]; done.
  - injection H as H. destruct (IH l2 H) as (r&c&E&L&X). cbn [add_rec]. rewrite E. cbn [bnd]. do 2 eexists. split; [done|]. split; [cbn; lia|].
    intros val S. specialize (X val S). cbn [map uv length]. rewrite !map_length, L, <- H, pow2_S.
    rewrite !(val_Or _ _ S), !(val_And _ _ S), !(val_Xor _ _ S).
    destruct neg; [rewrite !(val_Not _ _ S)|]; destruct (val a), (val b), (val c); cbn [negb xorb andb orb b2z] in *; lia. Qed.
Lemma gen_add_spec neg l1 l2 V1 V2 : hz l1 V1 -> hz l2 V2 -> length l1 = length l2 ->
  exists r, gen_add neg l1 l2 = Some r /\ minimal r /\ hz r (fun val => if neg then V1 val - V2 val else V1 val + V2 val).
Proof.
  intros [N1 H1] [N2 H2] L. destruct l1 as [|a l1]; [done|]. destruct l2 as [|b l2]; [done|]. unfold gen_add. cbn [hd_error bnd].
  destruct (add_rec_spec neg (a :: a :: l1) (b :: b :: l2) ltac:(cbn in *; lia)) as (r&c&E&Lr&X). rewrite E. cbn [bnd]. eexists. split; [done|].
  split; [apply trim_minimal|]. apply hz_trim. split; [by intros ->|]. intros val S. rewrite <- (H1 val S), <- (H2 val S). specialize (X val S).
  destruct r as [|h t]; [done|]. cbn [map uv length] in *. rewrite !sv_cons, !map_length in *. injection L as L. rewrite <- L in *.
  pose proof (uv_range (map val t)) as Ut. pose proof (uv_range (map val l1)) as U1. pose proof (uv_range (map val l2)) as U2. rewrite map_length in *.
  replace (length t) with (Datatypes.S (length l1)) in * by lia. rewrite <- L in U2. rewrite !pow2_S in *. set (P := pow2 (length l1)) in *.
  destruct neg, (val a), (val b), (val c), (val h); cbn [b2z] in *; lia. Qed.
Lemma hz_Zero : hz [Zero] (fun _ => 0).
Proof. split; [done|]. intros val S. cbn. by rewrite (val_Zero _ _ S). Qed.
Lemma hz_01 : hz [Zero; One] (fun _ => 1).
Proof. split; [done|]. intros val S. cbn. by rewrite (val_Zero _ _ S), (val_One _ _ S). Qed.
Lemma negate_spec l V : hz l V -> exists r, negate_bev_list l = Some r /\ minimal r /\ hz r (fun val => - V val).
Proof.
  intros H. unfold negate_bev_list. destruct (sx2_spec l [Zero] V _ H hz_Zero) as (a&b&E&L&Ha&Hb). rewrite E. cbn [bnd].
  destruct (gen_add_spec true b a _ _ Hb Ha (eq_sym L)) as (r&Er&_&Hr). rewrite Er. cbn [bnd]. eexists. split; [done|]. split; [apply trim_minimal|].
  apply hz_trim. eapply hz_ext; [exact Hr|]. intros val S. cbn. lia. Qed.
Lemma decrement_spec l V : hz l V -> exists r, decrement_bev_list l = Some r /\ minimal r /\ hz r (fun val => V val - 1).
Proof.
  intros H. unfold decrement_bev_list. destruct (sx2_spec l [Zero; One] V _ H hz_01) as (a&b&E&L&Ha&Hb). rewrite E. cbn [bnd].
  destruct (gen_add_spec true a b _ _ Ha Hb L) as (r&Er&_&Hr). rewrite Er. cbn [bnd]. eexists. split; [done|]. split; [apply trim_minimal|].
  apply hz_trim. exact Hr. Qed.
Lemma abs_spec l V : hz l V -> exists r, abs_bev_list l = Some r /\ minimal r /\ hz r (fun val => Z.abs (V val)).
Proof.
  intros H. unfold abs_bev_list. destruct (hz_hd _ _ H) as (f&Ef&Hf). rewrite Ef. cbn [bnd]. destruct (negate_spec l V H) as (n&En&_&Hn). rewrite En. cbn [bnd].
  destruct (ite_spec f _ n l _ _ Hf Hn H) as (r&Er&_&Hr). rewrite Er. cbn [bnd]. eexists. split; [done|]. split; [apply trim_minimal|].
  apply hz_trim. eapply hz_ext; [exact Hr|]. intros val S. cbn. destruct (Z.ltb_spec (V val) 0); lia. Qed.
Lemma addsub_spec neg l1 l2 V1 V2 : hz l1 V1 -> hz l2 V2 ->
  exists r, (get (a, b) from sx2 l1 l2; get r from gen_add neg a b; Some (trim_bev r)) = Some r /\ minimal r /\
    hz r (fun val => if neg then V1 val - V2 val else V1 val + V2 val).
Proof.
  intros H1 H2. destruct (sx2_spec l1 l2 V1 V2 H1 H2) as (a&b&E&L&Ha&Hb). rewrite E. cbn [bnd].
  destruct (gen_add_spec neg a b _ _ Ha Hb L) as (r&Er&_&Hr). rewrite Er. cbn [bnd]. eexists. split; [done|]. split; [apply trim_minimal|]. by apply hz_trim. Qed.
Lemma hz_pad n l V : hz l V -> (forall val, sound A val -> 0 <= V val) -> hz (repeat Zero n ++ l) V.
Proof.
  intros [N H] P. split; [destruct n; [done|done]|]. intros val S. rewrite map_app, map_repeat, (val_Zero _ _ S).
  rewrite sv_pad_zero; [by apply H|rewrite H by done; by apply P|by destruct l]. Qed.
Lemma mult_spec xv yv : exists r, mult_bev_list xv yv = Some r /\ hz r (fun val => uv (map val xv) * uv (map val yv)).
Proof.
  induction yv as [|y yv (rem&E&Hr)].
  - exists [Zero]. split; [done|]. eapply hz_ext; [apply hz_Zero|]. intros val S. cbn. lia.
  - cbn [mult_bev_list]. rewrite E. cbn [bnd zx2]. unfold zx2.
    set (prod := Zero :: map (And y) xv ++ repeat Zero (length yv)).
    assert (Hp : hz prod (fun val => uv (map val xv) * (b2z (val y) * pow2 (length yv)))).
    { split; [done|]. intros val S. unfold prod. cbn [map]. rewrite sv_cons, (val_Zero _ _ S), map_app, map_repeat, (val_Zero _ _ S), uv_app, uv_zeros, repeat_length.
      rewrite map_map. rewrite (map_ext _ (fun x => val y && val x)) by (intros; apply (val_And _ _ S)).
      rewrite <- (map_map val (andb (val y))), BvArith.uv_scale. cbn [b2z]. ring. }
    assert (P1 : forall val, sound A val -> 0 <= uv (map val xv) * (b2z (val y) * pow2 (length yv))).
    { intros val S. pose proof (uv_range (map val xv)). pose proof (pow2_pos (length yv)). apply Z.mul_nonneg_nonneg; [lia|destruct (val y); cbn [b2z]; lia]. }
    assert (P2 : forall val, sound A val -> 0 <= uv (map val xv) * uv (map val yv)).
    { intros val S. pose proof (uv_range (map val xv)). pose proof (uv_range (map val yv)). apply Z.mul_nonneg_nonneg; lia. }
    destruct (gen_add_spec false _ _ _ _ (hz_pad (length rem - length prod) _ _ Hp P1) (hz_pad (length prod - length rem) _ _ Hr P2)) as (r&Er&_&X).
    { rewrite !app_length, !repeat_length. lia. }
    rewrite Er. cbn [bnd]. eexists. split; [done|]. apply hz_trim. eapply hz_ext; [exact X|]. intros val S. cbn. rewrite map_length. ring. Qed.
Lemma hb_Xor a b P Q : hb a P -> hb b Q -> hb (Xor a b) (fun val => xorb (P val) (Q val)).
Proof. intros H1 H2 val S. by rewrite (val_Xor _ _ S), (H1 val S), (H2 val S). Qed.
Lemma hb_Xnor a b P Q : hb a P -> hb b Q -> hb (Xnor a b) (fun val => Bool.eqb (P val) (Q val)).
Proof. intros H1 H2 val S. by rewrite (val_Xnor _ _ S), (H1 val S), (H2 val S). Qed.
Lemma hb_Or a b P Q : hb a P -> hb b Q -> hb (Or a b) (fun val => P val || Q val).
Proof. intros H1 H2 val S. by rewrite (val_Or _ _ S), (H1 val S), (H2 val S). Qed.
Lemma mul_spec l1 l2 V1 V2 : hz l1 V1 -> hz l2 V2 -> exists r, bev_mul l1 l2 = Some r /\ minimal r /\ hz r (fun val => V1 val * V2 val).
Proof.
  assert (Main : forall av bev W1 W2, hz av W1 -> hz bev W2 -> exists r,
    (get neg_a from hd_error av; get abs_av from abs_bev_list av;
     get neg_b from hd_error bev; get abs_bev from abs_bev_list bev;
     get prod from mult_bev_list abs_av abs_bev;
     let abs_res := Zero :: prod in
     get neg_res from negate_bev_list abs_res;
     get (abs_res, neg_res) from sx2 abs_res neg_res;
     get r from ite_bev_list (Xor neg_a neg_b) neg_res abs_res;
     Some (trim_bev r)) = Some r /\ minimal r /\ hz r (fun val => W1 val * W2 val)).
  { intros av bev W1 W2 H1 H2. destruct (hz_hd _ _ H1) as (na&Ena&Hna). rewrite Ena. cbn [bnd].
    destruct (abs_spec _ _ H1) as (aa&Eaa&_&Haa). rewrite Eaa. cbn [bnd]. destruct (hz_hd _ _ H2) as (nb&Enb&Hnb). rewrite Enb. cbn [bnd].
    destruct (abs_spec _ _ H2) as (ab&Eab&_&Hab). rewrite Eab. cbn [bnd]. destruct (mult_spec aa ab) as (p&Ep&Hp). rewrite Ep. cbn [bnd]. cbv zeta.
    assert (Hp' : hz (Zero :: p) (fun val => Z.abs (W1 val) * Z.abs (W2 val))).
    { eapply hz_ext; [apply (hz_pad 1 p _ Hp)|].
      - intros val S. pose proof (uv_range (map val aa)). pose proof (uv_range (map val ab)). apply Z.mul_nonneg_nonneg; lia.
      - intros val S. destruct Haa as [_ Ha], Hab as [_ Hb]. specialize (Ha val S). specialize (Hb val S). cbv beta in *. rewrite !sv_nonneg in Ha, Hb by lia. by rewrite Ha, Hb. }
    destruct (negate_spec _ _ Hp') as (n&En&_&Hn). rewrite En. cbn [bnd]. destruct (sx2_spec _ _ _ _ Hp' Hn) as (ar&nr&E&_&Har&Hnr). rewrite E. cbn [bnd].
    destruct (ite_spec _ _ _ _ _ _ (hb_Xor _ _ _ _ Hna Hnb) Hnr Har) as (r&Er&_&Hr). rewrite Er. cbn [bnd]. eexists. split; [done|]. split; [apply trim_minimal|].
    apply hz_trim. eapply hz_ext; [exact Hr|]. intros val S. cbv beta. destruct (Z.ltb_spec (W1 val) 0), (Z.ltb_spec (W2 val) 0); cbn [xorb]; nia. }
  intros H1 H2. unfold bev_mul. destruct (length l1 <? length l2)%nat.
  - destruct (Main l2 l1 V2 V1 H2 H1) as (r&E&M&H). exists r. split; [exact E|]. split; [done|]. eapply hz_ext; [exact H|]. intros. cbv beta. lia.
  - by apply Main. Qed.
Lemma less_rec_spec l1 : forall l2, length l1 = length l2 -> exists c, @less_rec A l1 l2 = Some c /\ hb c (fun val => uv (map val l1) <? uv (map val l2)).
Proof.
  induction l1 as [|a l1 IH]; intros [|b l2] H; try done.
  - exists Zero. split; [done|]. intros val S. by rewrite (val_Zero _ _ S).
  - injection H as H. destruct (IH l2 H) as (c&E&X). cbn [less_rec]. rewrite E. cbn [bnd]. eexists. split; [done|]. intros val S. specialize (X val S). cbv beta in X.
    rewrite !(val_Or _ _ S), !(val_And _ _ S), (val_Not _ _ S), (val_Xnor _ _ S), X. cbn [map uv]. rewrite !map_length, <- H.
    pose proof (uv_range (map val l1)) as U1. pose proof (uv_range (map val l2)) as U2. rewrite map_length in U1. rewrite map_length, <- H in U2.
    destruct (Z.ltb_spec (uv (map val l1)) (uv (map val l2))), (val a), (val b); cbn [negb andb orb Bool.eqb b2z]; symmetry; first [apply Z.ltb_lt; lia|apply Z.ltb_ge; lia]. Qed.
Lemma less_spec l1 l2 V1 V2 : hz l1 V1 -> hz l2 V2 -> exists c, less_than_bev_list l1 l2 = Some c /\ hb c (fun val => V1 val <? V2 val).
Proof.
  intros H1 H2. unfold less_than_bev_list. destruct (sx2_spec _ _ _ _ H1 H2) as (a&b&E&L&Ha&Hb). rewrite E. cbn [bnd].
  destruct (hz_hd _ _ Ha) as (na&Ena&Hna), (hz_hd _ _ Hb) as (nb&Enb&Hnb). rewrite Ena, Enb. cbn [bnd].
  destruct (less_rec_spec a b L) as (c&Ec&Hc). rewrite Ec. cbn [bnd]. eexists. split; [done|]. intros val S.
  rewrite !(val_Ite _ _ S), (val_One _ _ S), (val_Zero _ _ S), (Hna val S), (Hnb val S), (Hc val S). destruct Ha as [Na Ha], Hb as [Nb Hb]. rewrite <- (Ha val S), <- (Hb val S).
  destruct a as [|x1 l]; [done|]. destruct b as [|y1 r]; [done|]. cbn [map]. rewrite <- !sv_sign, !sv_cons. cbn [uv]. injection L as L. rewrite !map_length, L.
  pose proof (uv_range (map val l)) as U1. pose proof (uv_range (map val r)) as U2. rewrite map_length, L in U1. rewrite map_length in U2.
  destruct (val x1), (val y1); cbn [b2z]; try done; symmetry;
    first [apply Z.ltb_lt; lia|apply Z.ltb_ge; lia|
      destruct (Z.ltb_spec (1 * pow2 (length r) + uv (map val l)) (1 * pow2 (length r) + uv (map val r))); first [apply Z.ltb_lt; lia|apply Z.ltb_ge; lia]|
      destruct (Z.ltb_spec (0 * pow2 (length r) + uv (map val l)) (0 * pow2 (length r) + uv (map val r))); first [apply Z.ltb_lt; lia|apply Z.ltb_ge; lia]]. Qed.
Lemma eq_loop_spec l1 : forall l2 res R, length l1 = length l2 -> hb res R ->
  exists c, @eq_loop A res l1 l2 = Some c /\ hb c (fun val => R val && bool_decide (map val l1 = map val l2)).
Proof.
  induction l1 as [|a l1 IH]; intros [|b l2] res R H HR; try done.
  - exists res. split; [done|]. intros val S. rewrite (HR val S). by destruct (R val).
  - injection H as H. cbn [eq_loop].
    destruct (IH l2 (And res (Xnor a b)) (fun val => R val && Bool.eqb (val a) (val b)) H) as (c&E&X).
    { intros val S. by rewrite (val_And _ _ S), (val_Xnor _ _ S), (HR val S). }
    exists c. split; [done|]. intros val S. rewrite (X val S). cbn [map]. rewrite <- andb_assoc. f_equal.
    destruct (bool_decide_reflect (val a :: map val l1 = val b :: map val l2)) as [Q|Q].
    + injection Q as -> ->. rewrite bool_decide_eq_true_2 by done. by destruct (val b).
    + case_bool_decide as Q2; [|by rewrite andb_false_r]. destruct (val a) eqn:EA, (val b) eqn:EB; try done; exfalso; apply Q; congruence. Qed.
Lemma eq_spec l1 l2 V1 V2 : hz l1 V1 -> hz l2 V2 -> exists c, bev_eq_list l1 l2 = Some c /\ hb c (fun val => V1 val =? V2 val).
Proof.
  assert (Main : forall l1 l2 V1 V2, hz l1 V1 -> hz l2 V2 -> (length l1 <= length l2)%nat -> exists c,
    (get b1 from hd_error l1; @eq_loop A One (repeat b1 (length l2 - length l1) ++ l1) l2) = Some c /\ hb c (fun val => V1 val =? V2 val)).
  { intros a b W1 W2 [Na Ha] [Nb Hb] L. destruct a as [|x a]; [done|]. cbn [hd_error bnd].
    destruct (eq_loop_spec (repeat x (length b - length (x :: a)) ++ x :: a) b One (fun _ => true)) as (c&E&X).
    { rewrite app_length, repeat_length. lia. }
    { intros val S. apply (val_One _ _ S). }
    exists c. split; [done|]. intros val S. rewrite (X val S). cbn [andb]. rewrite <- (Ha val S), <- (Hb val S).
    assert (Q0 : sv (map val (repeat x (length b - length (x :: a)) ++ x :: a)) = sv (map val (x :: a))).
    { rewrite map_app, map_repeat. cbn [map]. apply sv_rep. }
    rewrite <- Q0. case_bool_decide as Q; symmetry; [apply Z.eqb_eq; by rewrite Q|apply Z.eqb_neq]. intros Y. apply Q. apply sv_inj; [|done].
    rewrite !map_length, app_length, repeat_length. lia. }
  intros H1 H2. unfold bev_eq_list. destruct (Nat.ltb_spec (length l2) (length l1)).
  - destruct (Main l2 l1 V2 V1 H2 H1 ltac:(lia)) as (c&E&X). exists c. split; [done|]. intros val S. rewrite (X val S). apply Z.eqb_sym.
  - by apply Main. Qed.
Lemma bitwise_spec op (f : Z -> Z -> Z) g l1 l2 V1 V2 : (forall x y n, 0 <= n -> Z.testbit (f x y) n = g (Z.testbit x n) (Z.testbit y n)) ->
  (forall val a b, sound A val -> val (op a b) = g (val a) (val b)) -> hz l1 V1 -> hz l2 V2 ->
  exists r, bev_bitwise op l1 l2 = Some r /\ minimal r /\ hz r (fun val => f (V1 val) (V2 val)).
Proof.
  intros Hf Hop H1 H2. unfold bev_bitwise. destruct (sx2_spec _ _ _ _ H1 H2) as (a&b&E&L&[Na Ha]&[Nb Hb]). rewrite E. cbn [bnd].
  destruct (map2_spec op a b L) as (r&Er&Lr&X). rewrite Er. cbn [bnd]. eexists. split; [done|]. split; [apply trim_minimal|]. apply hz_trim.
  split; [intros ->; by destruct a|]. intros val S. rewrite (X (fun _ => g)) by (intros; by apply Hop).
  rewrite (sv_zipw f g Hf) by (first [rewrite !map_length; done|by destruct a]). by rewrite (Ha val S), (Hb val S). Qed.
Lemma not_spec l V : hz l V -> minimal (bev_NOT l) /\ hz (bev_NOT l) (fun val => Z.lnot (V val)).
Proof.
  intros [N H]. split; [apply trim_minimal|]. apply hz_trim. split; [by destruct l|]. intros val S. rewrite map_map.
  rewrite (map_ext _ (fun x => negb (val x))) by (intros; apply (val_Not _ _ S)). rewrite <- (map_map val negb), sv_not by (by destruct l).
  rewrite (H val S). unfold Z.lnot. lia. Qed.
Lemma ZX_spec l : minimal (@bev_ZX A l) /\ hz (bev_ZX l) (fun val => uv (map val l)).
Proof.
  split; [apply trim_minimal|]. do 2 apply hz_trim. split; [done|]. intros val S. cbn [map]. rewrite sv_cons, (val_Zero _ _ S). cbn [b2z]. lia. Qed.
Lemma ashr_spec l n V : hz l V -> (n < length l)%nat -> (minimal l -> minimal (bev_ashr l n)) /\ hz (bev_ashr l n) (fun val => V val / 2 ^ Z.of_nat n).
Proof.
  intros H L. unfold bev_ashr. destruct (Nat.eqb_spec n 0) as [->|Hn].
  - split; [done|]. eapply hz_ext; [exact H|]. intros val S. cbv beta. by rewrite Z.div_1_r.
  - split; [intros _; apply trim_minimal|]. apply hz_trim. destruct H as [N H]. destruct l as [|f l]; [done|].
    replace (length (f :: l) - n)%nat with (Datatypes.S (length l - n)) by (cbn [length] in *; lia). cbn [firstn]. split; [done|]. intros val S. rewrite <- (H val S).
    cbn [map]. assert (El : map val l = map val (firstn (length l - n) l) ++ map val (skipn (length l - n) l)) by (by rewrite <- map_app, firstn_skipn). rewrite El.
    rewrite (BvArith.sv_prefix (val f) (map val (firstn (length l - n) l)) (map val (skipn (length l - n) l))). f_equal.
    rewrite map_length, skipn_length, pow2_eq. f_equal. cbn [length] in L. lia. Qed.
Lemma ashr_empty l n : (length l <= n)%nat -> (0 < n)%nat -> @bev_ashr A l n = [].
Proof. intros L P. unfold bev_ashr. destruct (Nat.eqb_spec n 0); [lia|]. replace (length l - n)%nat with 0%nat by lia. done. Qed.

(** division *)
Lemma is_zero_fold l : forall z Zf, hb z Zf -> hb (fold_left (fun z f => And z (Not f)) l z) (fun val => Zf val && (uv (map val l) =? 0)).
Proof.
  induction l as [|f l IH]; intros z Zf Hz; cbn [fold_left].
  - intros val S. rewrite (Hz val S). by destruct (Zf val).
  - intros val S. rewrite (IH (And z (Not f)) (fun val => Zf val && negb (val f))); [|by intros v' S'; rewrite (val_And _ _ S'), (val_Not _ _ S'), (Hz v' S')|done].
    cbn [map uv]. pose proof (uv_range (map val l)). pose proof (pow2_pos (length (map val l))).
    destruct (Zf val), (val f); cbn [negb andb b2z]; try done; symmetry; apply Z.eqb_neq; lia. Qed.
Lemma is_zero_spec l : hb (@is_zero_list A l) (fun val => uv (map val l) =? 0).
Proof. intros val S. unfold is_zero_list. rewrite (is_zero_fold l One (fun _ => true)); [done| |done]. intros v' S'. apply (val_One _ _ S'). Qed.
Lemma sub_loop_spec r : forall b, length r = length b -> exists d c, @sub_loop A r b = Some (d, c) /\ length d = length r /\
  forall val, sound A val -> uv (map val d) + b2z (val c) * pow2 (length r) = uv (map val r) - uv (map val b) + pow2 (length r).
Proof.
  induction r as [|x r IH]; intros [|y b] H; try done.
  - exists [], One. split; [done|]. split; [done|]. intros val S. cbn. rewrite (val_One _ _ S). done.
  - injection H as H. destruct (IH b H) as (d&c&E&L&X). cbn [sub_loop]. rewrite E. cbn [bnd]. do 2 eexists. split; [done|]. split; [cbn; lia|].
    intros val S. specialize (X val S). cbn [map uv length]. rewrite !map_length, L, <- H, pow2_S.
    rewrite !(val_Or _ _ S), !(val_And _ _ S), !(val_Xor _ _ S), !(val_Not _ _ S).
    destruct (val x), (val y), (val c); cbn [negb xorb andb orb b2z] in *; lia. Qed.
Lemma geq_loop_spec r : forall b, length r = length b -> exists c, @geq_loop A r b = Some c /\ hb c (fun val => uv (map val b) <=? uv (map val r)).
Proof.
  induction r as [|x r IH]; intros [|y b] H; try done.
  - exists One. split; [done|]. intros val S. by rewrite (val_One _ _ S).
  - injection H as H. destruct (IH b H) as (c&E&X). cbn [geq_loop]. rewrite E. cbn [bnd]. eexists. split; [done|]. intros val S. specialize (X val S). cbv beta in X.
    rewrite !(val_Or _ _ S), !(val_And _ _ S), (val_Not _ _ S), (val_Xnor _ _ S), X. cbn [map uv]. rewrite !map_length, <- H.
    pose proof (uv_range (map val r)) as U1. pose proof (uv_range (map val b)) as U2. rewrite map_length in U1. rewrite map_length, <- H in U2.
    destruct (Z.leb_spec (uv (map val b)) (uv (map val r))), (val x), (val y); cbn [negb andb orb Bool.eqb b2z]; symmetry; first [apply Z.leb_le; lia|apply Z.leb_gt; lia]. Qed.
Lemma map_tl (val : env) (l : vec) : map val (tl l) = tail (map val l).
Proof. by destruct l. Qed.
Lemma div_bits_spec bb : forall av q r k, length q = length bb -> length r = length bb -> (k + length av = length bb)%nat ->
  exists q' r', @div_bits A av bb q r = Some (q', r') /\ length q' = length bb /\ length r' = length bb /\
    forall val P, sound A val -> uv (map val bb) <> 0 -> 2 * uv (map val bb) < pow2 (length bb) -> 0 <= P < pow2 k ->
      uv (map val q) * uv (map val bb) + uv (map val r) = P -> uv (map val r) < uv (map val bb) ->
      uv (map val q') * uv (map val bb) + uv (map val r') = P * pow2 (length av) + uv (map val av) /\ uv (map val r') < uv (map val bb).
Proof.
  induction av as [|a av IH]; intros q r k Lq Lr Lk.
  - exists q, r. split_and!; try done. intros val P S _ _ HP He Hlt. split; [|done]. cbn [length map uv]. rewrite pow2_0. lia.
  - cbn [div_bits]. assert (Nq : q <> []) by (intros ->; cbn in *; lia). assert (Nr : r <> []) by (intros ->; cbn in *; lia).
    assert (Lr1 : length (tl r ++ [a]) = length bb) by (rewrite app_length; destruct r; [done|]; cbn [tl length] in *; lia).
    destruct (sub_loop_spec (tl r ++ [a]) bb Lr1) as (d&c&Ed&Ld&D). rewrite Ed. cbn [bnd].
    destruct (geq_loop_spec (tl r ++ [a]) bb Lr1) as (g&Eg&Hg). rewrite Eg. cbn [bnd].
    destruct (map2_spec (Ite g) d (tl r ++ [a]) Ld) as (r2&E2&L2&X2). rewrite E2. cbn [bnd].
    destruct (IH (tl q ++ [g]) r2 (Datatypes.S k)) as (q'&r'&E&L1'&L2'&Inv).
    { rewrite app_length. destruct q; [done|]. cbn [tl length] in *. lia. }
    { lia. }
    { cbn [length] in Lk. lia. }
    exists q', r'. split_and!; try done. intros val P S Bnz Blt HP He Hlt. cbn [map uv length]. rewrite map_length, pow2_S.
    specialize (D val S). specialize (Hg val S). cbv beta in Hg.
    specialize (X2 (fun val a b => if val g then a else b) val ltac:(intros; apply (val_Ite _ _ S))). cbv beta in X2.
    rewrite BvDiv.zipw_choice in X2 by (rewrite !map_length; done).
    assert (Hk : 2 * pow2 k <= pow2 (length bb)).
    { replace (length bb) with (Datatypes.S k + (length bb - Datatypes.S k))%nat by (cbn [length] in Lk; lia). rewrite pow2_add, pow2_S. pose proof (pow2_pos k). pose proof (pow2_pos (length bb - Datatypes.S k)). nia. }
    pose proof (uv_range (map val bb)) as UB. pose proof (uv_range (map val r)) as UR. pose proof (uv_range (map val q)) as UQ. pose proof (uv_range (map val d)) as UD.
    rewrite map_length in UB, UR, UQ, UD.
    assert (Er1 : uv (map val (tl r ++ [a])) = 2 * uv (map val r) + b2z (val a)).
    { rewrite map_app, map_tl. apply BvDiv.uv_shift; [by destruct r|rewrite map_length, Lr; lia]. }
    assert (HqP : uv (map val q) < pow2 k) by (apply (BvDiv.div_arith _ (uv (map val r)) (uv (map val bb)) P); lia).
    assert (Eq1 : uv (map val (tl q ++ [g])) = 2 * uv (map val q) + b2z (val g)).
    { rewrite map_app, map_tl. apply BvDiv.uv_shift; [by destruct q|rewrite map_length, Lq; lia]. }
    specialize (Inv val (2 * P + b2z (val a)) S Bnz Blt). rewrite Eq1, X2 in Inv. rewrite Er1, Lr1 in *. rewrite Ld in UD.
    assert (Bx : 0 <= b2z (val a) <= 1) by (destruct (val a); cbn; lia).
    replace ((2 * P + b2z (val a)) * pow2 (length av) + uv (map val av)) with (P * (2 * pow2 (length av)) + (b2z (val a) * pow2 (length av) + uv (map val av))) in Inv by ring.
    apply Inv.
    + rewrite pow2_S. lia.
    + rewrite Hg. destruct (Z.leb_spec (uv (map val bb)) (2 * uv (map val r) + b2z (val a))) as [Hge|Hlt2]; cbn [b2z].
      * destruct (val c); cbn [b2z] in D; [|exfalso; lia]. rewrite <- He. lia.
      * rewrite Er1. lia.
    + rewrite Hg. destruct (Z.leb_spec (uv (map val bb)) (2 * uv (map val r) + b2z (val a))) as [Hge|Hlt2]; [|rewrite Er1; lia].
      destruct (val c); cbn [b2z] in D; lia. Qed.
Lemma no_ones val l : sound A val -> is_scalar_list l = true -> forallb (fun f : node A => negb (same f One)) l = true -> uv (map val l) = 0.
Proof.
  intros S. induction l as [|f l IH]; [done|]. cbn [is_scalar_list forallb map uv]. intros H1 H2.
  apply andb_prop in H1 as [H1 H1'], H2 as [H2 H2']. rewrite IH by done. apply negb_true_iff in H2. rewrite H2 in H1. cbn [orb] in H1.
  rewrite (val_same _ _ S _ _ H1), (val_Zero _ _ S). done. Qed.
Lemma power_of_two (l : vec) n : constant_power_of_two l = Some n -> (n < length l)%nat /\ forall val, sound A val -> uv (map val l) = pow2 n.
Proof.
  unfold constant_power_of_two. destruct (is_scalar_list l) eqn:Hs; [|done].
  induction l as [|f l IH]; [done|]. cbn [after_one]. cbn [is_scalar_list forallb] in Hs. apply andb_prop in Hs as [Hf Hs]. cbn [map uv length].
  destruct (same f One) eqn:E1.
  - destruct (forallb (fun f : node A => negb (same f One)) l) eqn:Hall; [|done]. intros Hx. assert (n = length l) as -> by congruence. split; [lia|].
    intros val S. rewrite (val_same _ _ S _ _ E1), (val_One _ _ S), (no_ones val l S Hs Hall), map_length. cbn [b2z]. lia.
  - intros H. destruct (IH Hs H) as [H1 H2]. split; [lia|]. intros val S. rewrite (H2 val S). cbn [orb] in Hf. rewrite (val_same _ _ S _ _ Hf), (val_Zero _ _ S). cbn [b2z]. lia. Qed.
Lemma fixed_spec av bv : length av = length bv -> exists q r, @fixed_ext_bevdiv A av bv = Some (q, r) /\ length q = length bv /\ length r = length bv /\
  forall val, sound A val -> 2 * uv (map val bv) < pow2 (length bv) -> uv (map val bv) <> 0 ->
    uv (map val q) = uv (map val av) / uv (map val bv) /\ uv (map val r) = uv (map val av) mod uv (map val bv).
Proof.
  intros Hl. unfold fixed_ext_bevdiv. rewrite Hl, Nat.eqb_refl. destruct (constant_power_of_two bv) as [n|] eqn:Hc.
  - destruct (power_of_two bv n Hc) as [Hn HP]. do 2 eexists. split; [done|]. split_and!.
    + rewrite app_length, repeat_length, firstn_length. lia.
    + rewrite app_length, repeat_length, skipn_length. lia.
    + intros val S _ _. rewrite !map_app, !map_repeat, (val_Zero _ _ S), !uv_zeros_app, (HP val S).
      assert (El : map val av = map val (firstn (length bv - n) av) ++ map val (skipn (length bv - n) av)) by (by rewrite <- map_app, firstn_skipn).
      rewrite El, uv_app, map_length.
      pose proof (uv_range (map val (skipn (length bv - n) av))) as U. rewrite map_length in U. rewrite skipn_length in *. replace (length av - (length bv - n))%nat with n in * by lia.
      split; [apply Z.div_unique with (r := uv (map val (skipn (length bv - n) av))); lia|apply Z.mod_unique with (q := uv (map val (firstn (length bv - n) av))); lia].
  - destruct (div_bits_spec bv av (repeat Zero (length bv)) (repeat Zero (length bv)) 0) as (q&r&E&L1&L2&D); [apply repeat_length|apply repeat_length|lia|].
    exists q, r. split_and!; try done. intros val S Hb Hnz. pose proof (uv_range (map val bv)). pose proof (uv_range (map val r)).
    destruct (D val 0 S) as [D1 D2]; [done|done|rewrite pow2_0; lia|rewrite map_repeat, (val_Zero _ _ S), uv_zeros; lia|rewrite map_repeat, (val_Zero _ _ S), uv_zeros; lia|].
    split; [apply Z.div_unique with (r := uv (map val r)); lia|apply Z.mod_unique with (q := uv (map val q)); lia]. Qed.
Lemma top0 (l : list bool) n : l <> [] -> 0 <= sv l -> 2 * uv (repeat false n ++ l) < pow2 (length (repeat false n ++ l)).
Proof.
  intros Hl Hp. rewrite uv_zeros_app, <- sv_nonneg by done. destruct l as [|b l]; [done|]. pose proof (sv_range b l).
  rewrite app_length, repeat_length. cbn [length]. rewrite pow2_add, pow2_S. pose proof (pow2_pos n). pose proof (pow2_pos (length l)). nia. Qed.
Lemma small l n : length l = n -> (0 < n)%nat -> 2 * uv l < pow2 n -> sv l = uv l.
Proof. intros Hl Hn. destruct l as [|b l]; cbn [length] in *; [lia|]. rewrite <- Hl, sv_uv. cbn [uv]. rewrite pow2_S. pose proof (uv_range l). destruct b; cbn [b2z]; lia. Qed.
Lemma zx_abs n l V : hz l (fun val => Z.abs (V val)) -> forall val, sound A val ->
  uv (map val (repeat Zero n ++ l)) = Z.abs (V val) /\ 2 * Z.abs (V val) < pow2 (length (repeat (@Zero A) n ++ l)).
Proof.
  intros [N H] val S. specialize (H val S). cbv beta in H.
  assert (E : uv (map val (repeat Zero n ++ l)) = Z.abs (V val)).
  { rewrite map_app, map_repeat, (val_Zero _ _ S), uv_zeros_app, <- sv_nonneg by lia. done. }
  split; [done|]. rewrite <- E. rewrite map_app, map_repeat, (val_Zero _ _ S).
  replace (length (repeat (@Zero A) n ++ l)) with (length (repeat false n ++ map val l)) by (rewrite !app_length, !repeat_length, map_length; done).
  apply top0; [by destruct l|lia]. Qed.
Lemma signed_div_spec dv nv D N : hz dv D -> hz nv N ->
  exists q r Q R, signed_bevdiv dv nv = Some (q, r) /\ hz q Q /\ hz r R /\ forall val, sound A val -> N val <> 0 -> Q val = D val / N val /\ R val = D val mod N val.
Proof.
  intros HD HN. unfold signed_bevdiv. destruct (hz_hd _ _ HD) as (nd&End&Hnd), (hz_hd _ _ HN) as (nn&Enn&Hnn). rewrite End, Enn. cbn [bnd].
  destruct (abs_spec _ _ HD) as (ad&Ead&_&Had). rewrite Ead. cbn [bnd]. destruct (abs_spec _ _ HN) as (an&Ean&_&Han). rewrite Ean. cbn [bnd]. unfold zx2.
  pose proof (zx_abs (length an - length ad) ad D Had) as VA. pose proof (zx_abs (length ad - length an) an N Han) as VB.
  pose proof (hz_pad (length ad - length an) an _ Han ltac:(intros; cbv beta; lia)) as HB.
  set (av := repeat Zero (length an - length ad) ++ ad) in *. set (bv := repeat Zero (length ad - length an) ++ an) in *.
  assert (Lav : length av = length bv) by (unfold av, bv; rewrite !app_length, !repeat_length; lia).
  assert (Lbv : (0 < length bv)%nat) by (destruct HB as [NB _]; destruct bv; [done|cbn; lia]).
  clearbody av bv. destruct (fixed_spec av bv Lav) as (q&r&E&LQ&LR&QR). rewrite E. cbn [bnd].
  assert (HQ : hz q (fun val => sv (map val q))) by (split; [by intros ->; cbn in LQ; lia|done]).
  assert (HR : hz r (fun val => sv (map val r))) by (split; [by intros ->; cbn in LR; lia|done]).
  pose proof (hb_Xnor _ _ _ _ Hnd Hnn) as Hss. pose proof (is_zero_spec r) as Hex.
  destruct (negate_spec _ _ HQ) as (nq&Enq&_&Hnq). rewrite Enq. cbn [bnd].
  destruct (ite_spec _ _ _ _ _ _ Hss HQ Hnq) as (q0&Eq0&_&Hq0). rewrite Eq0. cbn [bnd].
  destruct (decrement_spec _ _ Hq0) as (dq&Edq&_&Hdq). rewrite Edq. cbn [bnd].
  destruct (ite_spec _ _ _ _ _ _ (hb_Or _ _ _ _ Hex Hss) Hq0 Hdq) as (qq&Eqq&_&Hqq). rewrite Eqq. cbn [bnd].
  destruct (gen_add_spec true r bv _ _ HR HB ltac:(lia)) as (rn&Ern&_&Hrn). rewrite Ern. cbn [bnd].
  destruct (ite_spec _ _ _ _ _ _ Hss HR Hrn) as (r0&Er0&_&Hr0). rewrite Er0. cbn [bnd].
  destruct (negate_spec _ _ Hr0) as (nr&Enr&_&Hnr). rewrite Enr. cbn [bnd].
  destruct (ite_spec _ _ _ _ _ _ Hnd Hnr Hr0) as (r1&Er1&_&Hr1). rewrite Er1. cbn [bnd].
  destruct (ite_spec _ _ _ _ _ _ Hex HR Hr1) as (rf&Erf&_&Hrf). rewrite Erf. cbn [bnd].
  exists qq, rf. do 2 eexists. split; [done|]. split; [exact Hqq|]. split; [exact Hrf|]. intros val S Hn. cbv beta.
  destruct (VA val S) as [VA1 VA2], (VB val S) as [VB1 VB2]. rewrite Lav in VA2.
  destruct (QR val S) as [E1 E2]; [lia|lia|]. rewrite VA1, VB1 in E1, E2.
  pose proof (Z.mod_pos_bound (Z.abs (D val)) (Z.abs (N val)) ltac:(lia)).
  pose proof (Z.div_le_upper_bound (Z.abs (D val)) (Z.abs (N val)) (Z.abs (D val)) ltac:(lia) ltac:(nia)).
  rewrite (small (map val q) (length bv)) by (rewrite ?map_length; lia). rewrite (small (map val r) (length bv)) by (rewrite ?map_length; lia).
  rewrite E1, E2. rewrite <- (BvDiv.div_signs _ _ Hn), <- (BvDiv.mod_signs _ _ Hn). cbv zeta.
  destruct (Bool.eqb (D val <? 0) (N val <? 0)), (Z.abs (D val) mod Z.abs (N val) =? 0); cbn [orb]; done. Qed.

(** conversions *)
Lemma list2int_spec val l : sound A val -> is_scalar_list l = true -> @bev_list2int A l = (uv (map val l), pow2 (length l)).
Proof.
  intros S. induction l as [|f l IH]; [done|]. cbn [is_scalar_list forallb]. intros H. apply andb_prop in H as [Hf H]. cbn [bev_list2int map uv length].
  rewrite (IH H), map_length, pow2_S. f_equal; [|lia]. destruct (same f Zero) eqn:E0.
  - rewrite (val_same _ _ S _ _ E0), (val_Zero _ _ S). cbn [b2z]. lia.
  - rewrite orb_false_r in Hf. rewrite (val_same _ _ S _ _ Hf), (val_One _ _ S). cbn [b2z]. lia. Qed.
End T.
Lemma digits_uv p : uv (digits p) = Zpos p.
Proof. induction p as [p IH|p IH|]; cbn [digits]; [| |done]; rewrite uv_app, IH; cbn [uv length b2z]; rewrite pow2_S, pow2_0; lia. Qed.
Lemma flip_spec r : 0 < uv (rev r) -> exists s, flip_rev r = Some s /\ length s = length r /\ uv (rev s) = pow2 (length r) - uv (rev r).
Proof.
  induction r as [|b r IH]; cbn [rev flip_rev]; [cbn; lia|]. rewrite uv_app. cbn [uv length]. rewrite !pow2_S, !pow2_0. intros H. destruct b.
  - eexists. split; [done|]. split; [cbn; by rewrite map_length|]. cbn [rev]. rewrite uv_app, <- map_rev, uv_not, rev_length. cbn [uv length b2z]. rewrite pow2_S, pow2_0. lia.
  - cbn [b2z] in *. destruct (IH ltac:(lia)) as (s&E&L&X). rewrite E. cbn [bnd]. eexists. split; [done|]. split; [cbn; lia|]. cbn [rev]. rewrite uv_app, X. cbn [uv length b2z]. rewrite pow2_S, pow2_0. lia. Qed.
Section U.
Context {A : alg}.
Lemma map_bit val l : sound A val -> map val (map bit l) = l.
Proof. intros S. induction l as [|b l IH]; [done|]. cbn [map]. rewrite IH. f_equal. destruct b; [apply (val_One _ _ S)|apply (val_Zero _ _ S)]. Qed.
Lemma int2bev_spec n : exists l, @int2bev A n = Some l /\ minimal l /\ hz l (fun _ => n).
Proof.
  destruct n as [|p|p]; cbn [int2bev].
  - eexists. split; [done|]. split; [apply trim_minimal|]. apply hz_trim. split; [done|]. intros val S. cbn. by rewrite (val_Zero _ _ S).
  - eexists. split; [done|]. split; [apply trim_minimal|]. apply hz_trim. split; [done|]. intros val S. cbn [map]. rewrite sv_cons, map_bit, (val_Zero _ _ S), digits_uv by done. cbn [b2z]. lia.
  - destruct (flip_spec (rev (digits p))) as (s&E&L&X); [rewrite rev_involutive, digits_uv; lia|]. rewrite E. cbn [bnd]. rewrite rev_involutive, digits_uv in X.
    eexists. split; [done|]. split; [apply trim_minimal|]. apply hz_trim. split; [done|]. intros val S. cbn [map]. rewrite sv_cons, map_bit, (val_One _ _ S), X by done.
    cbn [b2z]. rewrite !rev_length in *. rewrite L. lia. Qed.
End U.

(** constants *)
Section K.
Context {A : alg} (FO : folding A).
Notation K := (Forall (@konst A)).
Lemma scalar_K l : is_scalar_list l = true <-> K l.
Proof.
  unfold is_scalar_list. rewrite forallb_forall, Forall_forall. split; intros H f Hf.
  - specialize (H f Hf). apply orb_prop in H as [H|H]; apply (same_eq _ FO) in H; [by left|by right].
  - destruct (H f Hf) as [E|E]; apply orb_true_iff; [left|right]; by apply (same_eq _ FO). Qed.
Lemma K_trim l : K l -> K (trim_bev l).
Proof. intros H. induction l as [|f l IH]; [done|]. destruct l as [|g l]; [done|]. rewrite trim_cons. destruct (same f g); [|done]. apply IH. by inversion H. Qed.
Lemma K_sx1 n l r : K l -> sx1 n l = Some r -> K r.
Proof.
  unfold sx1. intros H. destruct (n - length l)%nat as [|k]; [by intros [= <-]|]. destruct l as [|f l]; [done|]. intros [= <-].
  inversion H as [|? ? Hf Hl]; subst. change (f :: repeat f k ++ f :: l) with (repeat f (S k) ++ f :: l). apply Forall_app; split; [|done].
  apply Forall_forall. intros x Hx. apply repeat_spec in Hx. by subst. Qed.
Lemma K_sx2 l1 l2 a b : K l1 -> K l2 -> sx2 l1 l2 = Some (a, b) -> K a /\ K b.
Proof.
  unfold sx2. intros H1 H2. destruct (sx1 (length l2) l1) as [x|] eqn:E1; [|done]. destruct (sx1 (length l1) l2) as [y|] eqn:E2; [|done]. intros [= <- <-].
  split; [exact (K_sx1 _ _ _ H1 E1)|exact (K_sx1 _ _ _ H2 E2)]. Qed.
Lemma K_add neg l1 : forall l2 r c, K l1 -> K l2 -> @add_rec A neg l1 l2 = Some (r, c) -> K r /\ konst c.
Proof.
  induction l1 as [|a l1 IH]; intros [|b l2] r c H1 H2; try done.
  - intros [= <- <-]. split; [done|]. destruct neg; [by left|by right].
  - cbn [add_rec]. destruct (add_rec neg l1 l2) as [[r1 c1]|] eqn:E; [|done]. inversion H1 as [|? ? Ka K1]; inversion H2 as [|? ? Kb K2]; subst.
    destruct (IH l2 r1 c1 K1 K2 E) as [Kr Kc]. cbn [bnd]. intros [= <- <-].
    assert (Kb' : konst (if neg then Not b else b)) by (destruct neg; [by apply (fold_Not _ FO)|done]).
    split; [constructor; [|done]|]; repeat first [apply (fold_Xor _ FO)|apply (fold_Or _ FO)|apply (fold_And _ FO)]; done. Qed.
Lemma K_gen_add neg l1 l2 r : K l1 -> K l2 -> gen_add neg l1 l2 = Some r -> K r.
Proof.
  unfold gen_add. intros H1 H2. destruct l1 as [|a l1]; [done|]. destruct l2 as [|b l2]; [done|]. cbn [hd_error bnd].
  destruct (add_rec neg (a :: a :: l1) (b :: b :: l2)) as [[s c]|] eqn:E; [|done]. cbn [bnd]. intros [= <-]. apply K_trim.
  inversion H1; inversion H2; subst. eapply (K_add neg _ _ s c); [| |exact E]; by constructor. Qed.
Lemma K_negate l r : K l -> negate_bev_list l = Some r -> K r.
Proof.
  unfold negate_bev_list. intros H. destruct (sx2 l [Zero]) as [[a b]|] eqn:E; [|done]. cbn [bnd].
  destruct (K_sx2 l [Zero] a b H ltac:(repeat constructor; by right) E) as [Ka Kb].
  destruct (gen_add true b a) as [s|] eqn:E2; [|done]. intros [= <-]. apply K_trim. by eapply K_gen_add; [exact Kb|exact Ka|]. Qed.
Lemma K_map2 op a : forall b r, (forall x y, konst x -> konst y -> @konst A (op x y)) -> K a -> K b -> map2 op a b = Some r -> K r.
Proof.
  induction a as [|x a IH]; intros b r Ho H1 H2; [by intros [= <-]|]. destruct b as [|y b]; [done|]. cbn [map2].
  destruct (map2 op a b) as [s|] eqn:E; [|done]. intros [= <-]. inversion H1; inversion H2; subst. constructor; [by apply Ho|]. by eapply IH. Qed.
Lemma K_ite c l1 l2 r : konst c -> K l1 -> K l2 -> ite_bev_list c l1 l2 = Some r -> K r.
Proof.
  unfold ite_bev_list. intros Hc H1 H2. destruct (sx2 l1 l2) as [[a b]|] eqn:E; [|done]. cbn [bnd]. destruct (K_sx2 _ _ _ _ H1 H2 E) as [Ka Kb].
  destruct (map2 _ a b) as [s|] eqn:E2; [|done]. intros [= <-]. apply K_trim. eapply K_map2; [|exact Ka|exact Kb|exact E2].
  intros x y Kx Ky. cbv beta. apply (fold_Or _ FO); apply (fold_And _ FO); [done|done|by apply (fold_Not _ FO)|done]. Qed.
Lemma bev2int_spec l : l <> [] -> match bev2int l with
  | Some (Some z) => K l /\ forall val, sound A val -> sv (map val l) = z
  | Some None => ~ K l
  | None => False end.
Proof.
  intros N. unfold bev2int. destruct (is_scalar_list l) eqn:Hs; [|intros HK; apply scalar_K in HK; congruence].
  pose proof (proj1 (scalar_K l) Hs) as HK. destruct l as [|h l]; [done|]. cbn [hd_error bnd].
  destruct (abs_spec (A:=A) (h :: l) (fun val => sv (map val (h :: l)))) as (a&Ea&_&[Na Ha]); [by split|]. rewrite Ea. cbn [bnd].
  split; [done|]. intros val S.
  assert (Ka : is_scalar_list a = true).
  { apply scalar_K. unfold abs_bev_list in Ea. cbn [hd_error bnd] in Ea. destruct (negate_bev_list (h :: l)) as [n|] eqn:En; [|done]. cbn [bnd] in Ea.
    destruct (ite_bev_list h n (h :: l)) as [t|] eqn:Et; [|done]. injection Ea as <-. apply K_trim. eapply K_ite; [|by eapply K_negate; [exact HK|exact En]|exact HK|exact Et]. by inversion HK. }
  rewrite (list2int_spec val a S Ka). cbn [fst]. specialize (Ha val S). cbv beta in Ha. rewrite sv_nonneg in Ha by lia. rewrite Ha.
  pose proof (sv_sign (val h) (map val l)) as Sg. cbn [map] in *. inversion HK as [|? ? Kh]; subst. destruct (same h One) eqn:E1.
  - rewrite (val_same _ _ S _ _ E1), (val_One _ _ S) in Sg |- *. symmetry in Sg. apply Z.ltb_lt in Sg. lia.
  - destruct Kh as [->| ->]; [exfalso; assert (same (@One A) One = true) by (by apply (same_eq _ FO)); congruence|].
    rewrite (val_Zero _ _ S) in Sg |- *. symmetry in Sg. apply Z.ltb_ge in Sg. lia. Qed.
End K.

(** the statements of the properties *)
Section P.
Context {A : alg}.
Notation vec := (list (node A)).
Lemma hz_num (l : vec) : l <> [] -> hz l (fun val => num val l).
Proof. intros N. split; [done|]. intros val S. unfold num. by rewrite signed_sv. Qed.
Lemma gives_hz o f : (exists r, o = Some r /\ @minimal A r /\ hz r f) -> gives o f.
Proof. intros (r&E&M&[N H]). exists r. split_and!; try done. intros val S. unfold num. rewrite signed_sv. by apply H. Qed.
Lemma hz_gives o f : @gives A o f -> exists r, o = Some r /\ hz r f.
Proof. intros (r&E&N&_&H). exists r. split; [done|]. split; [done|]. intros val S. rewrite <- signed_sv. by apply H. Qed.
Lemma thm_add (l1 l2 : vec) : l1 <> [] -> l2 <> [] -> gives (bev_add l1 l2) (fun val => num val l1 + num val l2).
Proof. intros H1 H2. apply gives_hz. exact (addsub_spec false _ _ _ _ (hz_num _ H1) (hz_num _ H2)). Qed.
Lemma thm_sub (l1 l2 : vec) : l1 <> [] -> l2 <> [] -> gives (bev_sub l1 l2) (fun val => num val l1 - num val l2).
Proof. intros H1 H2. apply gives_hz. exact (addsub_spec true _ _ _ _ (hz_num _ H1) (hz_num _ H2)). Qed.
Lemma thm_mul (l1 l2 : vec) : l1 <> [] -> l2 <> [] -> gives (bev_mul l1 l2) (fun val => num val l1 * num val l2).
Proof. intros H1 H2. apply gives_hz. exact (mul_spec _ _ _ _ (hz_num _ H1) (hz_num _ H2)). Qed.
Lemma thm_divmod (l1 l2 : vec) : l1 <> [] -> l2 <> [] -> exists q r, bev_div l1 l2 = Some q /\ bev_mod l1 l2 = Some r /\
  q <> [] /\ r <> [] /\ minimal q /\ minimal r /\ forall val, sound A val -> num val l2 <> 0 -> num val q = num val l1 / num val l2 /\ num val r = num val l1 mod num val l2.
Proof.
  intros H1 H2. destruct (signed_div_spec _ _ _ _ (hz_num _ H1) (hz_num _ H2)) as (q&r&Q&R&E&Hq&Hr&X). exists (trim_bev q), (trim_bev r).
  unfold bev_div, bev_mod. rewrite E. apply hz_trim in Hq as [Nq Hq], Hr as [Nr Hr]. split_and!; try done; [apply trim_minimal|apply trim_minimal|].
  intros val S Hn. destruct (X val S Hn) as [X1 X2]. unfold num at 1 4. rewrite !signed_sv, (Hq val S), (Hr val S). done. Qed.
Lemma thm_less (l1 l2 : vec) : l1 <> [] -> l2 <> [] -> decides (bev_less l1 l2) (fun val => num val l1 <? num val l2).
Proof. intros H1 H2. exact (less_spec _ _ _ _ (hz_num _ H1) (hz_num _ H2)). Qed.
Lemma decides_not (o : option (node A)) f g : decides o f -> (forall val, negb (f val) = g val) -> decides (get x from o; Some (Not x)) g.
Proof. intros (c&->&H) E. exists (Not c). split; [done|]. intros val S. by rewrite (val_Not _ _ S), (H val S), E. Qed.
Lemma thm_leq (l1 l2 : vec) : l1 <> [] -> l2 <> [] -> decides (bev_leq l1 l2) (fun val => num val l1 <=? num val l2).
Proof. intros H1 H2. eapply decides_not; [exact (thm_less l2 l1 H2 H1)|]. intros val. cbv beta. by rewrite Z.leb_antisym. Qed.
Lemma thm_greater (l1 l2 : vec) : l1 <> [] -> l2 <> [] -> decides (bev_greater l1 l2) (fun val => num val l2 <? num val l1).
Proof. intros H1 H2. exact (thm_less l2 l1 H2 H1). Qed.
Lemma thm_geq (l1 l2 : vec) : l1 <> [] -> l2 <> [] -> decides (bev_geq l1 l2) (fun val => num val l2 <=? num val l1).
Proof. intros H1 H2. eapply decides_not; [exact (thm_less l1 l2 H1 H2)|]. intros val. cbv beta. by rewrite Z.leb_antisym. Qed.
Lemma thm_eq (l1 l2 : vec) : l1 <> [] -> l2 <> [] -> decides (bev_eq l1 l2) (fun val => num val l1 =? num val l2).
Proof. intros H1 H2. exact (eq_spec _ _ _ _ (hz_num _ H1) (hz_num _ H2)). Qed.
Lemma thm_neq (l1 l2 : vec) : l1 <> [] -> l2 <> [] -> decides (bev_neq l1 l2) (fun val => negb (num val l1 =? num val l2)).
Proof. intros H1 H2. eapply decides_not; [exact (thm_eq l1 l2 H1 H2)|]. done. Qed.
Lemma thm_and (l1 l2 : vec) : l1 <> [] -> l2 <> [] -> gives (bev_AND l1 l2) (fun val => Z.land (num val l1) (num val l2)).
Proof. intros H1 H2. apply gives_hz. apply (bitwise_spec And Z.land andb); [intros; apply Z.land_spec|intros val a b S; apply (val_And _ _ S)|by apply hz_num|by apply hz_num]. Qed.
Lemma thm_or (l1 l2 : vec) : l1 <> [] -> l2 <> [] -> gives (bev_OR l1 l2) (fun val => Z.lor (num val l1) (num val l2)).
Proof. intros H1 H2. apply gives_hz. apply (bitwise_spec Or Z.lor orb); [intros; apply Z.lor_spec|intros val a b S; apply (val_Or _ _ S)|by apply hz_num|by apply hz_num]. Qed.
Lemma thm_xor (l1 l2 : vec) : l1 <> [] -> l2 <> [] -> gives (bev_XOR l1 l2) (fun val => Z.lxor (num val l1) (num val l2)).
Proof. intros H1 H2. apply gives_hz. apply (bitwise_spec Xor Z.lxor xorb); [intros; apply Z.lxor_spec|intros val a b S; apply (val_Xor _ _ S)|by apply hz_num|by apply hz_num]. Qed.
Lemma thm_xnor (l1 l2 : vec) : l1 <> [] -> l2 <> [] -> gives (bev_XNOR l1 l2) (fun val => Z.lnot (Z.lxor (num val l1) (num val l2))).
Proof.
  intros H1 H2. apply gives_hz. apply (bitwise_spec Xnor (fun x y => Z.lnot (Z.lxor x y)) Bool.eqb); [|intros val a b S; apply (val_Xnor _ _ S)|by apply hz_num|by apply hz_num].
  intros x y n Hn. rewrite Z.lnot_spec, Z.lxor_spec by lia. by destruct (Z.testbit x n), (Z.testbit y n). Qed.
Lemma thm_not (l : vec) : l <> [] -> gives (Some (bev_NOT l)) (fun val => Z.lnot (num val l)).
Proof. intros H. apply gives_hz. exists (bev_NOT l). split; [done|]. by apply not_spec, hz_num. Qed.
Lemma thm_ZX (l : vec) : gives (Some (bev_ZX l)) (fun val => unum val l).
Proof.
  apply gives_hz. exists (bev_ZX l). split; [done|]. destruct (ZX_spec l) as [M H]. split; [done|]. eapply hz_ext; [exact H|]. intros val S. unfold unum. by rewrite unsigned_uv. Qed.
Lemma thm_ashr (l : vec) n : (n < length l)%nat -> bev_ashr l n <> [] /\ forall val, sound A val -> num val (bev_ashr l n) = num val l / 2 ^ Z.of_nat n.
Proof.
  intros L. destruct (ashr_spec l n _ (hz_num l ltac:(by intros ->; cbn in L; lia)) L) as [_ [N H]]. split; [done|]. intros val S. unfold num at 1. rewrite signed_sv. by apply H. Qed.
Lemma thm_int2bev n : gives (@int2bev A n) (fun _ => n).
Proof. apply gives_hz. apply int2bev_spec. Qed.
Lemma thm_neg (l : vec) : l <> [] -> gives (bev_neg l) (fun val => - num val l).
Proof.
  intros H. unfold bev_neg. destruct (int2bev_spec (A:=A) 1) as (o&E&_&Ho). rewrite E. cbn [bnd]. apply gives_hz.
  destruct (not_spec l _ (hz_num l H)) as [_ Hn]. destruct (addsub_spec false _ _ _ _ Hn Ho) as (r&Er&M&Hr). exists r. split; [exact Er|]. split; [done|].
  eapply hz_ext; [exact Hr|]. intros val S. cbv beta. unfold Z.lnot. lia. Qed.
Lemma thm_then (c : node A) (t e : vec) : t <> [] -> e <> [] -> gives (bevTHEN c t e) (fun val => if val c then num val t else num val e).
Proof.
  intros Ht He. unfold bevTHEN. cbn [trim_bev]. destruct (thm_and [c] t ltac:(done) Ht) as (x&Ex&Nx&_&Hx). rewrite Ex. cbn [bnd].
  destruct (thm_not [c] ltac:(done)) as (n&En&Nn&_&Hn). injection En as En. rewrite En. destruct (thm_and n e Nn He) as (y&Ey&Ny&_&Hy). rewrite Ey. cbn [bnd].
  destruct (thm_or x y Nx Ny) as (r&Er&Nr&Mr&Hr). exists r. split_and!; try done. intros val S. rewrite (Hr val S), (Hx val S), (Hy val S), (Hn val S).
  assert (Ec : num val [c] = if val c then -1 else 0) by (unfold num; cbn; by destruct (val c)). rewrite Ec. destruct (val c).
  - rewrite Z.land_m1_l. change (Z.lnot (-1)) with 0. rewrite Z.land_0_l. apply Z.lor_0_r.
  - rewrite Z.land_0_l. change (Z.lnot 0) with (-1). rewrite Z.land_m1_l. apply Z.lor_0_l. Qed.
Lemma thm_pow fuel : forall base n : vec, bev_pow fuel base n = None.
Proof.
  induction fuel as [|fuel IH]; intros base n; [done|]. cbn [bev_pow]. destruct (int2bev 0); [|done]. destruct (int2bev 1) as [one|]; [|done]. cbn [bnd].
  destruct (bev_geq n l); [|done]. cbn [bnd]. destruct (bev_sub n one); [|done]. cbn [bnd]. by rewrite IH. Qed.
Lemma thm_shl fuel (n amount : vec) : bev_shl fuel n amount = None /\ bev_ashr_bevbev fuel n amount = None.
Proof. unfold bev_shl, bev_ashr_bevbev. destruct (int2bev 2) as [two|]; [|done]. cbn [bnd]. by rewrite thm_pow. Qed.
Lemma thm_bev2int (FO : folding A) (l : vec) : l <> [] -> match bev2int l with
  | Some (Some z) => Forall konst l /\ forall val, sound A val -> num val l = z
  | Some None => ~ Forall konst l
  | None => False end.
Proof.
  intros N. pose proof (bev2int_spec FO l N) as H. destruct (bev2int l) as [[z|]|]; [|done|done]. destruct H as [HK H]. split; [done|]. intros val S. unfold num. rewrite signed_sv. by apply H. Qed.
End P.
