(* Type inference finds the principal type. *)
From Coq Require Import String List Bool Arith Lia.
From Verif Require Import TyModel TyThms InfModel InfSpec.
Import ListNotations.
Open Scope list_scope.

Definition rd := nat -> tree.
Definition agree (n : nat) (r r' : rd) : Prop := forall x, x < n -> r' x = r x.

(* ---- trees ---- *)
Fixpoint tree_ind' (P : tree -> Prop) (H : forall l k, Forall P k -> P (Nd l k)) (t : tree) : P t :=
  match t with
  | Nd l k => H l k ((fix go k : Forall P k := match k with
                                     | [] => Forall_nil _
                                     | a :: k => Forall_cons _ (tree_ind' P H a) (go k)
                                     end) k)
  end.
Fixpoint tvars (t : tree) : list nat :=
  match t with
  | Nd (LVar p) _ => [p]
  | Nd (LCon _) k => flat_map tvars k
  end.
Lemma inst_ext f g : forall t, (forall v, In v (tvars t) -> f v = g v) -> inst f t = inst g t.
Proof.
  induction t as [l k IH] using tree_ind'. intros E. destruct l as [p|c]; cbn in *.
  - apply E. now left.
  - f_equal. apply map_ext_in. intros a Ia. rewrite Forall_forall in IH. apply IH; [assumption|].
    intros v Iv. apply E. apply in_flat_map. eauto.
Qed.
Lemma inst_inst f g : forall t, inst f (inst g t) = inst (fun v => inst f (g v)) t.
Proof.
  induction t as [l k IH] using tree_ind'. destruct l as [p|c]; cbn; [reflexivity|].
  f_equal. rewrite map_map. apply map_ext_in. rewrite Forall_forall in IH. exact IH.
Qed.

Fixpoint sch_ind' (P : sch -> Prop) (HV : forall i, P (SV i))
  (H : forall c l, Forall P l -> P (SC c l)) (t : sch) : P t :=
  match t with
  | SV i => HV i
  | SC c l => H c l ((fix go l : Forall P l := match l with
                                     | [] => Forall_nil _
                                     | a :: l => Forall_cons _ (sch_ind' P HV H a) (go l)
                                     end) l)
  end.

(* ---- stores that grow ---- *)
Definition node_ok (r : rd) (t : tree) (n : tnode) : Prop :=
  match n with
  | NVar => True
  | NInd q => t = r q
  | NCon c k => t = Nd (LCon c) (map r k)
  end.
Lemma node_ok_reading h r : reading h r <-> forall p n, nth_error h p = Some n -> node_ok r (r p) n.
Proof. split; intros R p n E; specialize (R p n E); destruct n; exact R. Qed.

Lemma reading_new h n r : reading (h ++ [n]) r <-> reading h r /\ node_ok r (r (length h)) n.
Proof.
  rewrite !node_ok_reading. split.
  - intros R. split.
    + intros p m E. apply R. rewrite nth_error_app1; [assumption|]. eapply nth_lt; eauto.
    + apply R. rewrite nth_error_app2, Nat.sub_diag by lia. reflexivity.
  - intros [R N] p m E. destruct (Nat.lt_ge_cases p (length h)) as [L|L].
    + rewrite nth_error_app1 in E by assumption. now apply R.
    + rewrite nth_error_app2 in E by assumption.
      destruct (p - length h) as [|d] eqn:D; cbn in E; [|destruct d; discriminate].
      injection E as <-. replace p with (length h) by lia. assumption.
Qed.

Lemma node_ok_agree r r' n m t : agree n r r' -> (forall x, In x (kids_of m) -> x < n) ->
  node_ok r t m -> node_ok r' t m.
Proof.
  intros A K N. destruct m as [|q|c k]; cbn in *; auto.
  - rewrite A; [assumption|]. apply K. now left.
  - rewrite N. f_equal. apply map_ext_in. intros a Ia. symmetry. apply A. auto.
Qed.
Lemma reading_agree h r r' : in_range h -> agree (length h) r r' -> reading h r -> reading h r'.
Proof.
  rewrite !node_ok_reading. intros IR A R p n E. rewrite A by (eapply nth_lt; eauto).
  eapply node_ok_agree; [exact A| |apply R, E]. intros x I. eapply IR; eauto.
Qed.

Definition put (n : nat) (t : tree) (r : rd) : rd := fun x => if Nat.eqb x n then t else r x.
Lemma put_agree n t r : agree n r (put n t r).
Proof. intros x L. unfold put. destruct (Nat.eqb_spec x n); [lia|reflexivity]. Qed.
Lemma put_same n t r : put n t r n = t.
Proof. unfold put. now rewrite Nat.eqb_refl. Qed.
Lemma extend h n r t : in_range h -> (forall x, In x (kids_of n) -> x < length h) ->
  reading h r -> node_ok r t n -> reading (h ++ [n]) (put (length h) t r).
Proof.
  intros IR K R N. apply reading_new. split.
  - eapply reading_agree; [assumption|apply put_agree|assumption].
  - rewrite put_same. eapply node_ok_agree; [apply put_agree|exact K|exact N].
Qed.

Section Ar.
Variable ar : con -> nat.
Definition node_ar (n : tnode) : Prop := match n with NCon c k => length k = ar c | _ => True end.

Lemma child_app h n x p : (forall y, In y (kids_of n) -> y < length h) ->
  child (h ++ [n]) x p -> p < length h /\ child h x p \/ p = length h /\ x < length h.
Proof.
  intros K (m & E & I). destruct (Nat.lt_ge_cases p (length h)) as [L|L].
  - left. split; [assumption|]. rewrite nth_error_app1 in E by assumption. exists m. auto.
  - right. rewrite nth_error_app2 in E by assumption.
    destruct (p - length h) as [|d] eqn:D; cbn in E; [|destruct d; discriminate].
    injection E as <-. split; [lia|auto].
Qed.
Lemma store_new h n : store ar h -> (forall x, In x (kids_of n) -> x < length h) -> node_ar n ->
  store ar (h ++ [n]).
Proof.
  intros (IR & AC & AR) K N. split; [|split].
  - intros p m q E I. rewrite app_length. cbn.
    destruct (Nat.lt_ge_cases p (length h)) as [L|L].
    + rewrite nth_error_app1 in E by assumption. specialize (IR _ _ _ E I). lia.
    + rewrite nth_error_app2 in E by assumption.
      destruct (p - length h) as [|d]; cbn in E; [|destruct d; discriminate].
      injection E as <-. specialize (K _ I). lia.
  - assert (O : forall p, p < length h -> Acc (child (h ++ [n])) p).
    { intros p. specialize (AC p). induction AC as [p _ IH]. intros L. constructor. intros x C.
      apply (child_app _ _ _ _ K) in C as [[_ C]|[-> _]]; [|lia].
      apply IH; [assumption|]. destruct C as (m & E & I). eapply IR; eauto. }
    intros p. constructor. intros x C. apply O.
    apply (child_app _ _ _ _ K) in C as [[_ (m & E & I)]|[_ L]]; [eapply IR; eauto|assumption].
  - intros p c k E. destruct (Nat.lt_ge_cases p (length h)) as [L|L].
    + rewrite nth_error_app1 in E by assumption. eapply AR; eauto.
    + rewrite nth_error_app2 in E by assumption.
      destruct (p - length h) as [|d]; cbn in E; [|destruct d; discriminate].
      injection E as ->. exact N.
Qed.

(* ---- copies ---- *)
Section Copy.
Variable src : heap.
Variable R : rd.
Hypothesis RR : reading src R.
Hypothesis RV : forall p, nth_error src p = Some NVar -> R p = Nd (LVar p) [].
Hypothesis SS : store ar src.

Definition dom (m : memo) : list nat := map fst m.
Definition memo_ok (m : memo) (dst : heap) : Prop :=
  forall g d, In (g, d) m -> d < length dst /\ incl (tvars (R g)) (dom m).
Definition fits (m : memo) (r : rd) (f : rd) : Prop :=
  forall g d, In (g, d) m -> r d = inst f (R g).

Definition copied (m : memo) (dst : heap) (m' : memo) (dst' : heap) : Prop :=
  store ar dst' /\ length dst <= length dst' /\ incl m m' /\ memo_ok m' dst'
  /\ (exists t, dst' = dst ++ t)
  /\ (forall r, reading dst' r -> reading dst r)
  /\ (forall r f, reading dst' r -> fits m r f -> exists f', fits m' r f')
  /\ (forall r f, reading dst r -> fits m r f ->
        exists r', reading dst' r' /\ agree (length dst) r r' /\ fits m' r' f).
Definition image (p q : nat) (m' : memo) : Prop := exists g, R p = R g /\ In (g, q) m'.

Lemma copied_refl m dst : store ar dst -> memo_ok m dst -> copied m dst m dst.
Proof.
  intros S MO. split; [assumption|]. split; [lia|]. split; [apply incl_refl|]. split; [assumption|].
  split; [exists []; now rewrite app_nil_r|]. split; [auto|]. split.
  - intros r f _ F. eauto.
  - intros r f Rr F. exists r. split; [assumption|]. split; [intros x _; reflexivity|assumption].
Qed.
Lemma copied_trans m1 d1 m2 d2 m3 d3 :
  copied m1 d1 m2 d2 -> copied m2 d2 m3 d3 -> copied m1 d1 m3 d3.
Proof.
  intros (S1 & L1 & I1 & M1 & T1 & B1 & F1 & C1) (S2 & L2 & I2 & M2 & T2 & B2 & F2 & C2).
  split; [assumption|]. split; [lia|]. split; [eapply incl_tran; eauto|]. split; [assumption|].
  split. { destruct T1 as [t1 ->], T2 as [t2 ->]. exists (t1 ++ t2). now rewrite app_assoc. }
  split; [auto|]. split.
  - intros r f Rr F. destruct (F1 r f) as [f1 Ff1]; auto. eauto.
  - intros r f Rr F. destruct (C1 r f Rr F) as (r1 & R1 & A1 & G1).
    destruct (C2 r1 f R1 G1) as (r2 & R2 & A2 & G2). exists r2. split; [assumption|].
    split; [|assumption]. intros x Lx. rewrite A2 by lia. now apply A1.
Qed.

Lemma dom_incl m m' : incl m m' -> incl (dom m) (dom m').
Proof. intros I x Hx. apply in_map_iff in Hx as ([a b] & <- & H). apply in_map_iff. eauto. Qed.

Lemma assoc_in m p q : assoc m p = Some q -> In (p, q) m.
Proof.
  induction m as [|[a b] m IH]; cbn; [discriminate|]. destruct (Nat.eqb_spec a p) as [->|]; intros E.
  - injection E as ->. now left.
  - right. auto.
Qed.
Lemma assoc_none m p : assoc m p = None -> ~ In p (dom m).
Proof.
  induction m as [|[a b] m IH]; cbn; [tauto|]. destruct (Nat.eqb_spec a p) as [->|]; [discriminate|].
  intros E [?|?]; [congruence|]. now apply IH.
Qed.

(* Recording a copy that has just been made. *)
Lemma copied_new m dst p n :
  store ar dst -> memo_ok m dst -> assoc m p = None ->
  (forall x, In x (kids_of n) -> x < length dst) -> node_ar n ->
  (n = NVar /\ nth_error src p = Some NVar \/
   exists c l k, n = NCon c k /\ R p = Nd (LCon c) (map R l) /\ Forall2 (fun a x => image a x m) l k) ->
  copied m dst ((p, length dst) :: m) (dst ++ [n]).
Proof.
  intros S MO AN K NA D. assert (IR := proj1 S).
  assert (V : incl (tvars (R p)) (p :: dom m)).
  { destruct D as [[-> E]|(c & l & k & -> & E & F)].
    - rewrite (RV _ E). intros v [<-|[]]. now left.
    - rewrite E. cbn. intros v Iv. right. apply in_flat_map in Iv as (t & It & Iv).
      apply in_map_iff in It as (a & <- & Ia).
      clear - F Ia Iv MO. induction F as [|a0 x0 l k (g & Eg & Ig) F IH]; [destruct Ia|].
      destruct Ia as [->|Ia]; [|auto]. rewrite Eg in Iv. now apply (MO _ _ Ig). }
  split; [now apply store_new|]. split; [rewrite app_length; cbn; lia|].
  split; [intros x; now right|]. split.
  { intros g d [[= <- <-]|I].
    - split; [rewrite app_length; cbn; lia|exact V].
    - destruct (MO _ _ I) as [L Iv]. split; [rewrite app_length; cbn; lia|].
      intros v Hv. right. auto. }
  split; [exists [n]; reflexivity|]. split; [intros r Rr; now apply reading_new in Rr|]. split.
  - intros r f Rr F. apply reading_new in Rr as [Rr N].
    destruct D as [[-> E]|(c & l & k & -> & E & F2)].
    + exists (fun v => if Nat.eqb v p then r (length dst) else f v). intros g d [[= <- <-]|I].
      * rewrite (RV _ E). cbn. now rewrite Nat.eqb_refl.
      * rewrite (F _ _ I). apply inst_ext. intros v Iv. apply (MO _ _ I) in Iv.
        destruct (Nat.eqb_spec v p) as [->|]; [|reflexivity]. now apply assoc_none in AN.
    + exists f. intros g d [[= <- <-]|I]; [|auto]. cbn in N. rewrite N, E. cbn. f_equal.
      clear - F2 F. induction F2 as [|a x l k (g & Eg & Ig) F2 IH]; cbn; [reflexivity|].
      f_equal; [|assumption]. rewrite Eg. now apply F.
  - intros r f Rr F. exists (put (length dst) (inst f (R p)) r). split; [|split].
    + apply extend; auto. destruct D as [[-> E]|(c & l & k & -> & E & F2)]; cbn; [exact I|].
      rewrite E. cbn. f_equal. clear - F2 F.
      induction F2 as [|a x l k (g & Eg & Ig) F2 IH]; cbn; [reflexivity|].
      f_equal; [|assumption]. rewrite Eg. symmetry. now apply F.
    + apply put_agree.
    + intros g d [[= <- <-]|I]; [apply put_same|]. rewrite put_agree by now apply (MO _ _ I). auto.
Qed.

Lemma image_mono p q m m' : incl m m' -> image p q m -> image p q m'.
Proof. intros I (g & E & G). exists g. auto. Qed.

Definition copy_list (cp : nat -> memo -> heap -> option (nat * memo * heap)) :=
  fix loop l m dst :=
    match l with
    | [] => Some ([], m, dst)
    | a :: l =>
        match cp a m dst with
        | None => None
        | Some (x, m, dst) =>
            match loop l m dst with
            | None => None
            | Some (k, m, dst) => Some (x :: k, m, dst)
            end
        end
    end.
Lemma copy_S f p m dst : copy (S f) src p m dst =
  match get_real f src p with
  | None => None
  | Some p =>
      match assoc m p with
      | Some q => Some (q, m, dst)
      | None =>
          match nth_error src p with
          | Some NVar => Some (length dst, (p, length dst) :: m, dst ++ [NVar])
          | Some (NCon c l) =>
              match copy_list (copy f src) l m dst with
              | None => None
              | Some (k, m, dst) => Some (length dst, (p, length dst) :: m, dst ++ [NCon c k])
              end
          | _ => None
          end
      end
  end.
Proof. reflexivity. Qed.

(* Where the keys of the table come from: nodes below the one that was copied. *)
Definition below (p : nat) (g : nat) : Prop := Relation_Operators.clos_refl_trans _ (child src) g p.

Lemma real_below f p p' : get_real f src p = Some p' -> below p p'.
Proof.
  revert p; induction f as [|f IH]; intros p E; [discriminate|]. cbn in E.
  destruct (nth_error src p) as [[|a|c k]|] eqn:N; try discriminate.
  - injection E as <-. apply Relation_Operators.rt_refl.
  - apply IH in E. eapply Relation_Operators.rt_trans; [exact E|]. apply Relation_Operators.rt_step.
    exists (NInd a). split; [assumption|now left].
  - injection E as <-. apply Relation_Operators.rt_refl.
Qed.

Lemma copy_keys f : forall p m dst q m' dst', copy f src p m dst = Some (q, m', dst') ->
  forall g d, In (g, d) m' -> In (g, d) m \/ below p g.
Proof.
  induction f as [|f IH]; intros p m dst q m' dst' E; [discriminate|]. rewrite copy_S in E.
  destruct (get_real f src p) as [p'|] eqn:G; [|discriminate].
  assert (Gb := real_below _ _ _ G).
  destruct (assoc m p') as [x|]; [injection E as <- <- <-; auto|].
  destruct (nth_error src p') as [[|a|c l]|] eqn:N; try discriminate.
  - injection E as <- <- <-. intros g d [[= <- <-]|I]; auto.
  - destruct (copy_list (copy f src) l m dst) as [[[k m1] d1]|] eqn:EL; [|discriminate].
    injection E as <- <- <-. intros g d [[= <- <-]|I]; [auto|].
    assert (K : forall a, In a l -> below p' a).
    { intros a Ia. apply Relation_Operators.rt_step. exists (NCon c l). auto. }
    clear N. revert m dst k m1 d1 EL g d I. induction l as [|a l IHl]; intros m dst k m1 d1 EL g d I.
    + injection EL as <- <- <-. auto.
    + cbn in EL. destruct (copy f src a m dst) as [[[x m2] d2]|] eqn:Ea; [|discriminate].
      destruct (copy_list (copy f src) l m2 d2) as [[[k2 m3] d3]|] eqn:El; [|discriminate].
      injection EL as <- <- <-.
      destruct (IHl ltac:(intros; apply K; now right) _ _ _ _ _ El _ _ I) as [I2|B]; [|auto].
      destruct (IH _ _ _ _ _ _ Ea _ _ I2) as [I3|B]; [auto|]. right.
      eapply Relation_Operators.rt_trans; [exact B|].
      eapply Relation_Operators.rt_trans; [apply K; now left|exact Gb].
Qed.

(* A node is not below its own children. *)
Lemma not_below p a : child src a p -> ~ below a p.
Proof.
  intros C B. destruct SS as (_ & AC & _). specialize (AC p).
  assert (W : Acc (Relation_Operators.clos_trans _ (child src)) p) by now apply Wellfounded.Transitive_Closure.Acc_clos_trans.
  assert (T : Relation_Operators.clos_trans _ (child src) p p).
  { apply Operators_Properties.clos_rt_t with a; [exact B|]. now apply Relation_Operators.t_step. }
  clear C B AC. induction W as [p _ IH]. exact (IH p T T).
Qed.

Lemma copy_spec f : forall p m dst q m' dst', copy f src p m dst = Some (q, m', dst') ->
  store ar dst -> memo_ok m dst -> copied m dst m' dst' /\ image p q m'.
Proof.
  induction f as [|f IH]; intros p m dst q m' dst' E S MO; [discriminate|]. rewrite copy_S in E.
  destruct (get_real f src p) as [p'|] eqn:G; [|discriminate].
  destruct (get_real_sound _ _ _ _ G) as [_ EqR]. specialize (EqR R RR).
  destruct (assoc m p') as [x|] eqn:As.
  - injection E as <- <- <-. split; [now apply copied_refl|]. exists p'. split; [assumption|].
    now apply assoc_in.
  - destruct (nth_error src p') as [[|a|c l]|] eqn:N; try discriminate.
    + injection E as <- <- <-. split; [|exists p'; split; [assumption|now left]].
      apply copied_new; cbn; auto. intros x [].
    + destruct (copy_list (copy f src) l m dst) as [[[k m1] d1]|] eqn:EL; [|discriminate].
      injection E as <- <- <-. split; [|exists p'; split; [assumption|now left]].
      assert (P : copied m dst m1 d1 /\ Forall2 (fun a x => image a x m1) l k).
      { clear N As. revert m dst k m1 d1 S MO EL.
        induction l as [|a l IHl]; intros m dst k m1 d1 S MO EL.
        - injection EL as <- <- <-. split; [now apply copied_refl|constructor].
        - cbn in EL. destruct (copy f src a m dst) as [[[x m2] d2]|] eqn:Ea; [|discriminate].
          destruct (copy_list (copy f src) l m2 d2) as [[[k2 m3] d3]|] eqn:El; [|discriminate].
          injection EL as <- <- <-. destruct (IH _ _ _ _ _ _ Ea S MO) as [C1 I1].
          destruct (IHl m2 d2 k2 m3 d3) as [C2 I2]; [apply C1|apply C1|assumption|].
          split; [eapply copied_trans; eauto|]. constructor; [|assumption].
          eapply image_mono; [|exact I1]. apply C2. }
      destruct P as [C F]. eapply copied_trans; [exact C|].
      apply copied_new; [apply C|apply C| | | |].
      * destruct (assoc m1 p') as [y|] eqn:A1; [|reflexivity]. exfalso.
        apply assoc_in in A1. clear C F IH.
        assert (K : forall a, In a l -> child src a p') by (intros; exists (NCon c l); auto).
        assert (NI : forall d, ~ In (p', d) m).
        { intros d I. apply assoc_none in As. apply As. apply in_map_iff. exists (p', d). auto. }
        clear N As S MO. revert m dst k m1 d1 EL A1 NI.
        induction l as [|a l IHl]; intros m dst k m1 d1 EL A1 NI.
        -- injection EL as <- <- <-. now apply NI in A1.
        -- cbn in EL. destruct (copy f src a m dst) as [[[x m2] d2]|] eqn:Ea; [|discriminate].
           destruct (copy_list (copy f src) l m2 d2) as [[[k2 m3] d3]|] eqn:El; [|discriminate].
           injection EL as <- <- <-. eapply IHl; [intros; apply K; now right|exact El|exact A1|].
           intros d I. destruct (copy_keys _ _ _ _ _ _ _ Ea _ _ I) as [I0|B].
           ++ now apply NI in I0.
           ++ revert B. apply not_below. apply K. now left.
      * cbn. intros x Ix. clear - F Ix C. destruct C as (_ & _ & _ & MO & _).
        induction F as [|a y l k (g & _ & Ig) F IHF]; [destruct Ix|].
        destruct Ix as [->|Ix]; [|auto]. now apply (MO _ _ Ig).
      * cbn. rewrite <- (proj2 (proj2 SS) _ _ _ N). clear - F. induction F; cbn; congruence.
      * right. exists c, l, k. split; [reflexivity|]. split; [|assumption].
        exact (RR _ _ N).
Qed.

(* The copy is a type with the same instances. *)
Lemma copy_type_spec f p dst q dst' : copy_type f src p dst = Some (q, dst') -> store ar dst ->
  store ar dst' /\ (exists t, dst' = dst ++ t) /\ q < length dst'
  /\ (forall r, reading dst' r -> reading dst r)
  /\ (forall r, reading dst' r -> exists g, r q = inst g (R p))
  /\ (forall r g, reading dst r -> exists r', reading dst' r' /\ agree (length dst) r r' /\ r' q = inst g (R p)).
Proof.
  unfold copy_type. destruct (copy f src p [] dst) as [[[q0 m] d0]|] eqn:E; [|discriminate].
  intros [= <- <-] S. destruct (copy_spec _ _ _ _ _ _ _ E S) as [C (g & Eg & Ig)].
  { intros ? ? []. }
  destruct C as (S' & L & _ & MO & T & B & Fs & Cp). split; [assumption|]. split; [assumption|].
  split; [now apply (MO _ _ Ig)|]. split; [assumption|]. split.
  - intros r Rr. destruct (Fs r (fun v => Nd (LVar v) []) Rr) as [f' F]; [intros ? ? []|].
    exists f'. rewrite Eg. now apply F.
  - intros r f0 Rr. destruct (Cp r f0 Rr) as (r' & R' & A & F); [intros ? ? []|].
    exists r'. split; [assumption|]. split; [assumption|]. rewrite Eg. now apply F.
Qed.

(* Copies end. *)
Lemma copy_mono f : forall f' p m dst x, f <= f' -> copy f src p m dst = Some x -> copy f' src p m dst = Some x.
Proof.
  induction f as [|f IH]; intros f' p m dst x L E; [discriminate|]. destruct f' as [|f']; [lia|].
  rewrite copy_S in *. destruct (get_real f src p) as [p'|] eqn:G; [|discriminate].
  rewrite (get_real_mono f f' _ _ _ ltac:(lia) G).
  destruct (assoc m p'); [assumption|]. destruct (nth_error src p') as [[|a|c l]|]; auto.
  destruct (copy_list (copy f src) l m dst) as [[[k m1] d1]|] eqn:EL; [|discriminate].
  assert (EL' : copy_list (copy f' src) l m dst = Some (k, m1, d1)).
  { clear E. revert m dst k m1 d1 EL. induction l as [|a l IHl]; intros m dst k m1 d1 EL; [assumption|].
    cbn in *. destruct (copy f src a m dst) as [[[y m2] d2]|] eqn:Ea; [|discriminate].
    rewrite (IH f' _ _ _ _ ltac:(lia) Ea).
    destruct (copy_list (copy f src) l m2 d2) as [[[k2 m3] d3]|] eqn:El; [|discriminate].
    now rewrite (IHl _ _ _ _ _ El). }
  now rewrite EL'.
Qed.
Lemma copy_total p : p < length src -> exists f, forall m dst, exists x, copy f src p m dst = Some x.
Proof.
  destruct SS as (IR & AC & _). intros L.
  assert (P : forall p, Acc (Relation_Operators.clos_trans _ (child src)) p -> p < length src ->
     exists f, forall m dst, exists x, copy f src p m dst = Some x).
  { clear p L. intros p A. induction A as [p _ IH]. intros L.
    destruct (get_real_total src p (AC p) IR L) as (f0 & p' & G).
    destruct (get_real_sound _ _ _ _ G) as [(n & N & NI) _].
    destruct n as [|a|c l].
    - exists (S f0). intros m dst. rewrite copy_S, G, N. destruct (assoc m p'); eauto.
    - now destruct (NI a).
    - assert (K : forall a, In a l -> exists f, forall m dst, exists x, copy f src a m dst = Some x).
      { intros a Ia. apply IH.
        - eapply child_real; [exact G|]. exists (NCon c l). auto.
        - eapply IR; [exact N|exact Ia]. }
      assert (Fl : exists f, forall m dst, exists x, copy_list (copy f src) l m dst = Some x).
      { clear N NI. induction l as [|a l IHl]; [exists 0; cbn; eauto|].
        destruct IHl as [f1 F1]; [intros; apply K; now right|].
        destruct (K a) as [f2 F2]; [now left|]. exists (f1 + f2). intros m dst. cbn.
        destruct (F2 m dst) as [[[x m1] d1] E]. rewrite (copy_mono f2 (f1 + f2) _ _ _ _ ltac:(lia) E).
        destruct (F1 m1 d1) as [[[k m2] d2] E2].
        assert (E2' : copy_list (copy (f1 + f2) src) l m1 d1 = Some (k, m2, d2)).
        { clear - E2. revert m1 d1 k m2 d2 E2. induction l as [|b l IHl]; intros m1 d1 k m2 d2 E2; [assumption|].
          cbn in *. destruct (copy f1 src b m1 d1) as [[[y m3] d3]|] eqn:Eb; [|discriminate].
          rewrite (copy_mono f1 (f1 + f2) _ _ _ _ ltac:(lia) Eb).
          destruct (copy_list (copy f1 src) l m3 d3) as [[[k2 m4] d4]|] eqn:El; [|discriminate].
          now rewrite (IHl _ _ _ _ _ El). }
        rewrite E2'. eauto. }
      destruct Fl as [f1 F1]. exists (S (f0 + f1)). intros m dst. rewrite copy_S.
      rewrite (get_real_mono f0 (f0 + f1) _ _ _ ltac:(lia) G), N. destruct (assoc m p'); [eauto|].
      destruct (F1 m dst) as [[[k m2] d2] E2].
      assert (E2' : copy_list (copy (f0 + f1) src) l m dst = Some (k, m2, d2)).
      { clear - E2. revert m dst k m2 d2 E2. induction l as [|b l IHl]; intros m dst k m2 d2 E2; [assumption|].
        cbn in *. destruct (copy f1 src b m dst) as [[[y m3] d3]|] eqn:Eb; [|discriminate].
        rewrite (copy_mono f1 (f0 + f1) _ _ _ _ ltac:(lia) Eb).
        destruct (copy_list (copy f1 src) l m3 d3) as [[[k2 m4] d4]|] eqn:El; [|discriminate].
        now rewrite (IHl _ _ _ _ _ El). }
      rewrite E2'. eauto. }
  apply P; [|assumption]. now apply Wellfounded.Transitive_Closure.Acc_clos_trans.
Qed.
End Copy.
End Ar.
