(** Triples for programs over the BDD operations, and the bitwise parts of bv.c. *)
From stdpp Require Import gmap strings list.
From Coq Require Import NArith ZArith Lia.
From Verif Require Import BddModel BddWf BddOps BddRelprod BddDen BddHist BddThms BvModel BvBits.
Open Scope Z_scope.

(** The formulas [rs] are held in state [s], the constants among them. *)
Definition st (s : bst) (rs : list fml) : Prop := reached s rs /\ ZERO ∈ rs /\ ONE ∈ rs.
Definition grows (s : bst) (rs : list fml) (s' : bst) (rs' : list fml) : Prop :=
  st s' rs' /\ rs ⊆ rs' /\ kept s s' rs.
Definition tri {A} (m : M A) (s : bst) (rs : list fml) (Q : A -> bst -> list fml -> Prop) : Prop :=
  exists a s' rs', m s = Some (a, s') /\ grows s rs s' rs' /\ Q a s' rs'.

Lemma grows_refl s rs : st s rs -> grows s rs s rs.
Proof. intros. split_and!; try done. Qed.
Lemma grows_trans s rs s1 rs1 s2 rs2 : grows s rs s1 rs1 -> grows s1 rs1 s2 rs2 -> grows s rs s2 rs2.
Proof.
  intros (H1&H2&H3) (H4&H5&H6). split_and!; [done|set_solver|]. intros f Hf E. rewrite H6 by set_solver. by apply H3. Qed.
Lemma tri_ret {A} (a : A) s rs (Q : A -> bst -> list fml -> Prop) : st s rs -> Q a s rs -> tri (ret a) s rs Q.
Proof. intros H Hq. exists a, s, rs. split_and!; first [done|by apply grows_refl|idtac]. Qed.
Lemma tri_bind {A B} (m : M A) (k : A -> M B) s rs (Q : B -> bst -> list fml -> Prop) :
  tri m s rs (fun a s' rs' => grows s rs s' rs' -> tri (k a) s' rs' Q) -> tri (bind m k) s rs Q.
Proof.
  intros (a&s'&rs'&E&G&H). destruct (H G) as (b&s''&rs''&E'&G'&H'). exists b, s'', rs''. split_and!; [|by eapply grows_trans|done].
  unfold bind. by rewrite E. Qed.
Lemma tri_weaken {A} (m : M A) s rs (Q Q' : A -> bst -> list fml -> Prop) :
  tri m s rs Q -> (forall a s' rs', grows s rs s' rs' -> Q a s' rs' -> Q' a s' rs') -> tri m s rs Q'.
Proof. intros (a&s'&rs'&E&G&H) HQ. exists a, s', rs'. split_and!; try done. by apply HQ. Qed.
Lemma tri_lift {A} (o : option A) a s rs (Q : A -> bst -> list fml -> Prop) : o = Some a -> st s rs -> Q a s rs -> tri (liftO o) s rs Q.
Proof. intros -> H Hq. by apply tri_ret. Qed.
Lemma grows_st s rs s' rs' : grows s rs s' rs' -> st s' rs'.
Proof. by intros (?&?). Qed.
Lemma grows_in s rs s' rs' f : grows s rs s' rs' -> f ∈ rs -> f ∈ rs'.
Proof. intros (?&H&_). apply H. Qed.
Lemma grows_sub s rs s' rs' (l : list fml) : grows s rs s' rs' -> l ⊆ rs -> l ⊆ rs'.
Proof. intros (?&?&_) ?. set_solver. Qed.
Lemma grows_den s rs s' rs' f E : grows s rs s' rs' -> f ∈ rs -> den s' f E = den s f E.
Proof. intros (_&_&H) Hf. by apply H. Qed.

Definition bits (s : bst) (E : nenv) (l : bvec) : list bool := map (fun f => den s f E) l.
Definition dz (s : bst) (E : nenv) (f : fml) : Z := b2z (den s f E).
Lemma bits_length s E l : length (bits s E l) = length l.
Proof. apply map_length. Qed.
Lemma bits_kept s rs s' rs' l E : grows s rs s' rs' -> l ⊆ rs -> bits s' E l = bits s E l.
Proof.
  intros G. induction l as [|f l IH]; intros Hl; [done|]. cbn. f_equal; [apply (grows_den s rs s' rs'); [done|set_solver]|].
  apply IH. set_solver. Qed.
Lemma den_ZERO s E : den s ZERO E = false. Proof. apply sem_ZERO. Qed.
Lemma den_ONE s E : den s ONE E = true. Proof. apply sem_ONE. Qed.

Lemma tri_op o s rs a b : st s rs -> a ∈ rs -> b ∈ rs ->
  tri (op_fn o a b) s rs (fun c s' rs' => c ∈ rs' /\ forall E, den s' c E = op_sem o (den s a E) (den s b E)).
Proof.
  intros (R&Z0&O1) Ha Hb. destruct (thm_op o s rs a b R Ha Hb) as (c&s'&E&R'&K&D). exists c, s', (rs ++ [c]).
  split_and!; try done; try set_solver. split_and!; [|set_solver|done]. split_and!; [done|set_solver|set_solver]. Qed.
Lemma tri_And s rs a b : st s rs -> a ∈ rs -> b ∈ rs ->
  tri (B_And a b) s rs (fun c s' rs' => c ∈ rs' /\ forall E, den s' c E = den s a E && den s b E).
Proof. apply (tri_op And). Qed.
Lemma tri_Or s rs a b : st s rs -> a ∈ rs -> b ∈ rs ->
  tri (B_Or a b) s rs (fun c s' rs' => c ∈ rs' /\ forall E, den s' c E = den s a E || den s b E).
Proof. apply (tri_op Or). Qed.
Lemma tri_Xor s rs a b : st s rs -> a ∈ rs -> b ∈ rs ->
  tri (B_Xor a b) s rs (fun c s' rs' => c ∈ rs' /\ forall E, den s' c E = xorb (den s a E) (den s b E)).
Proof. apply (tri_op Xor). Qed.
Lemma tri_Xnor s rs a b : st s rs -> a ∈ rs -> b ∈ rs ->
  tri (B_Xnor a b) s rs (fun c s' rs' => c ∈ rs' /\ forall E, den s' c E = Bool.eqb (den s a E) (den s b E)).
Proof. apply (tri_op Xnor). Qed.
Lemma tri_Not s rs a : st s rs -> a ∈ rs ->
  tri (B_Not a) s rs (fun c s' rs' => c ∈ rs' /\ forall E, den s' c E = negb (den s a E)).
Proof.
  intros (R&Z0&O1) Ha. destruct (thm_not s rs a R Ha) as (c&s'&E&R'&K&D). exists c, s', (rs ++ [c]).
  split_and!; try done; try set_solver. split_and!; [|set_solver|done]. split_and!; [done|set_solver|set_solver]. Qed.
Lemma tri_Ite s rs a b c : st s rs -> a ∈ rs -> b ∈ rs -> c ∈ rs ->
  tri (B_Ite a b c) s rs (fun d s' rs' => d ∈ rs' /\ forall E, den s' d E = if den s a E then den s b E else den s c E).
Proof.
  intros (R&Z0&O1) Ha Hb Hc. destruct (thm_ite s rs a b c R Ha Hb Hc) as (d&s'&E&R'&K&D). exists d, s', (rs ++ [d]).
  split_and!; try done; try set_solver. split_and!; [|set_solver|done]. split_and!; [done|set_solver|set_solver]. Qed.
(** Adding the constants. *)
Lemma st_start s rs : reached s rs -> exists rs', st s rs' /\ rs ⊆ rs'.
Proof.
  intros R. exists ((rs ++ [ZERO]) ++ [ONE]). split_and!; [|set_solver]. split_and!; [|set_solver|set_solver].
  apply (reached_step s (rs ++ [ZERO]) (CConst true) s _ c_tag); try done.
  by apply (reached_step s rs (CConst false) s _ c_tag). Qed.

(** Pure facts about vectors. *)
Lemma sub_cons (f : fml) l rs : (f :: l) ⊆ rs <-> f ∈ rs /\ l ⊆ rs.
Proof. set_solver. Qed.
Lemma sub_nil (rs : list fml) : [] ⊆ rs. Proof. set_solver. Qed.
Lemma sub_app (l r rs : list fml) : (l ++ r) ⊆ rs <-> l ⊆ rs /\ r ⊆ rs.
Proof. set_solver. Qed.
Lemma sub_rep (f : fml) n rs : f ∈ rs -> repeat f n ⊆ rs.
Proof. intros H. induction n; cbn; [apply sub_nil|]. by apply sub_cons. Qed.
Lemma bits_app s E l r : bits s E (l ++ r) = bits s E l ++ bits s E r.
Proof. apply map_app. Qed.
Lemma bits_rep s E f n : bits s E (repeat f n) = repeat (den s f E) n.
Proof. induction n; cbn; [done|]. by f_equal. Qed.
Lemma bits_zeros s E n : bits s E (repeat ZERO n) = repeat false n.
Proof. by rewrite bits_rep, den_ZERO. Qed.
Lemma trim_cons2 f g r : trim_bv (f :: g :: r) = if decide (f = g) then trim_bv (g :: r) else f :: g :: r.
Proof. reflexivity. Qed.
Lemma trim_sub l : trim_bv l ⊆ l.
Proof.
  induction l as [|f [|g r] IH]; [done|done|]. rewrite trim_cons2. destruct (decide (f = g)); set_solver. Qed.
Lemma trim_sub' l rs : l ⊆ rs -> trim_bv l ⊆ rs.
Proof. intros. pose proof (trim_sub l). set_solver. Qed.
Lemma trim_sv s E l : sv (bits s E (trim_bv l)) = sv (bits s E l).
Proof.
  induction l as [|f [|g r] IH]; [done|done|]. rewrite trim_cons2. destruct (decide (f = g)) as [->|]; [|done].
  rewrite IH. cbn [bits map]. by rewrite sv_dup. Qed.
Lemma trim_nil l : l <> [] -> trim_bv l <> [].
Proof.
  induction l as [|f [|g r] IH]; [done|done|]. intros _. rewrite trim_cons2. destruct (decide (f = g)); [|done]. by apply IH. Qed.
(** no redundant sign bit *)
Definition minimal (l : bvec) : Prop := match l with f :: g :: _ => f <> g | _ => True end.
Lemma trim_minimal l : minimal (trim_bv l).
Proof. induction l as [|f [|g r] IH]; [done|done|]. rewrite trim_cons2. destruct (decide (f = g)); [|done]. exact IH. Qed.
Lemma trim_fix l : minimal l -> trim_bv l = l.
Proof. destruct l as [|f [|g r]]; [done|done|]. cbn. intros. by rewrite decide_False. Qed.
Lemma pad_sub n f l rs : f ∈ rs -> l ⊆ rs -> pad n f l ⊆ rs.
Proof. intros. apply sub_app. split; [by apply sub_rep|done]. Qed.
Lemma pad_length n f l : length (pad n f l) = (n + length l)%nat.
Proof. unfold pad. by rewrite app_length, repeat_length. Qed.

(** A held formula with its meaning, and a held vector with the meaning of its bits. *)
Definition has (s : bst) (rs : list fml) (f : fml) (F : bfun) : Prop := f ∈ rs /\ forall E, den s f E = F E.
Definition hasv (s : bst) (rs : list fml) (l : bvec) (L : nenv -> list bool) : Prop := l ⊆ rs /\ forall E, bits s E l = L E.
Lemma has_grows s rs s' rs' f F : grows s rs s' rs' -> has s rs f F -> has s' rs' f F.
Proof. intros G [H D]. split; [by eapply grows_in|]. intros E. rewrite <- D. by eapply grows_den. Qed.
Lemma hasv_grows s rs s' rs' l L : grows s rs s' rs' -> hasv s rs l L -> hasv s' rs' l L.
Proof. intros G [H D]. split; [by eapply grows_sub|]. intros E. rewrite <- D. by eapply bits_kept. Qed.
Lemma has_ZERO s rs : st s rs -> has s rs ZERO (fun _ => false).
Proof. intros (?&?&?). split; [done|]. intros. apply den_ZERO. Qed.
Lemma has_ONE s rs : st s rs -> has s rs ONE (fun _ => true).
Proof. intros (?&?&?). split; [done|]. intros. apply den_ONE. Qed.
Lemma has_const s rs (b : bool) : st s rs -> has s rs (if b then ONE else ZERO) (fun _ => b).
Proof. destruct b; [apply has_ONE|apply has_ZERO]. Qed.
Lemma hasv_nil s rs : hasv s rs [] (fun _ => []).
Proof. split; [apply sub_nil|done]. Qed.
Lemma hasv_cons s rs f l F L : has s rs f F -> hasv s rs l L -> hasv s rs (f :: l) (fun E => F E :: L E).
Proof. intros [H D] [H' D']. split; [by apply sub_cons|]. intros E. cbn. f_equal; [apply D|apply D']. Qed.
Lemma hasv_app s rs l r L R : hasv s rs l L -> hasv s rs r R -> hasv s rs (l ++ r) (fun E => L E ++ R E).
Proof. intros [H D] [H' D']. split; [by apply sub_app|]. intros E. rewrite bits_app. f_equal; [apply D|apply D']. Qed.
Lemma hasv_zeros s rs n : st s rs -> hasv s rs (repeat ZERO n) (fun _ => repeat false n).
Proof. intros (?&?&?). split; [by apply sub_rep|]. intros E. apply bits_zeros. Qed.
Lemma hasv_uncons s rs f l L : hasv s rs (f :: l) L -> exists F L', has s rs f F /\ hasv s rs l L' /\ forall E, L E = F E :: L' E.
Proof.
  intros [H D]. apply sub_cons in H as [Hf Hl]. exists (den s f), (fun E => bits s E l). split_and!; [done|done|]. intros E. by rewrite <- D. Qed.
Lemma hasv_unapp s rs l r L : hasv s rs (l ++ r) L -> exists L1 L2, hasv s rs l L1 /\ hasv s rs r L2 /\ forall E, L E = L1 E ++ L2 E.
Proof.
  intros [H D]. apply sub_app in H as [Hl Hr]. exists (fun E => bits s E l), (fun E => bits s E r). split_and!; [done|done|].
  intros E. by rewrite <- D, bits_app. Qed.
Lemma hasv_len s rs l L E : hasv s rs l L -> length (L E) = length l.
Proof. intros [_ D]. by rewrite <- D, bits_length. Qed.
Lemma has_ext s rs f F F' : has s rs f F -> (forall E, F E = F' E) -> has s rs f F'.
Proof. intros [H D] X. split; [done|]. intros E. by rewrite D. Qed.
Lemma hasv_ext s rs l L L' : hasv s rs l L -> (forall E, L E = L' E) -> hasv s rs l L'.
Proof. intros [H D] X. split; [done|]. intros E. by rewrite D. Qed.

Lemma h_op o s rs a b F G : st s rs -> has s rs a F -> has s rs b G ->
  tri (op_fn o a b) s rs (fun c s' rs' => has s' rs' c (fun E => op_sem o (F E) (G E))).
Proof.
  intros S [Ha Da] [Hb Db]. eapply tri_weaken; [by apply tri_op|]. intros c s' rs' _ [Hc Dc]. split; [done|].
  intros E. by rewrite Dc, Da, Db. Qed.
Lemma h_And s rs a b F G : st s rs -> has s rs a F -> has s rs b G -> tri (B_And a b) s rs (fun c s' rs' => has s' rs' c (fun E => F E && G E)).
Proof. apply (h_op And). Qed.
Lemma h_Or s rs a b F G : st s rs -> has s rs a F -> has s rs b G -> tri (B_Or a b) s rs (fun c s' rs' => has s' rs' c (fun E => F E || G E)).
Proof. apply (h_op Or). Qed.
Lemma h_Xor s rs a b F G : st s rs -> has s rs a F -> has s rs b G -> tri (B_Xor a b) s rs (fun c s' rs' => has s' rs' c (fun E => xorb (F E) (G E))).
Proof. apply (h_op Xor). Qed.
Lemma h_Xnor s rs a b F G : st s rs -> has s rs a F -> has s rs b G -> tri (B_Xnor a b) s rs (fun c s' rs' => has s' rs' c (fun E => Bool.eqb (F E) (G E))).
Proof. apply (h_op Xnor). Qed.
Lemma h_Not s rs a F : st s rs -> has s rs a F -> tri (B_Not a) s rs (fun c s' rs' => has s' rs' c (fun E => negb (F E))).
Proof.
  intros S [Ha Da]. eapply tri_weaken; [by apply tri_Not|]. intros c s' rs' _ [Hc Dc]. split; [done|]. intros E. by rewrite Dc, Da. Qed.
Lemma h_Ite s rs a b c F G H : st s rs -> has s rs a F -> has s rs b G -> has s rs c H ->
  tri (B_Ite a b c) s rs (fun c s' rs' => has s' rs' c (fun E => if F E then G E else H E)).
Proof.
  intros S [Ha Da] [Hb Db] [Hc Dc]. eapply tri_weaken; [by apply tri_Ite|]. intros d s' rs' _ [Hd Dd]. split; [done|].
  intros E. by rewrite Dd, Da, Db, Dc. Qed.

(** Move what is held to the new state. *)
Ltac carry G :=
  cbv beta in *;
  repeat match goal with
    | H : has ?s ?rs _ _ |- _ => match type of G with grows s rs _ _ => apply (has_grows _ _ _ _ _ _ G) in H end
    | H : hasv ?s ?rs _ _ |- _ => match type of G with grows s rs _ _ => apply (hasv_grows _ _ _ _ _ _ G) in H end
    | H : st ?s ?rs |- _ => match type of G with grows s rs _ _ => clear H end
  end;
  let S' := fresh "Sx" in pose proof (grows_st _ _ _ _ G) as S'; clear G.
(** One operation of a program. *)
Ltac hstep L c H :=
  apply tri_bind; eapply tri_weaken; [eapply L; eassumption|];
  let s' := fresh "s" in let rs' := fresh "rs" in let G := fresh "G" in
  intros c s' rs' G H _; carry G.
Ltac hlast L H :=
  eapply tri_weaken; [eapply L; eassumption|];
  let c := fresh "c" in let s' := fresh "s" in let rs' := fresh "rs" in let G := fresh "G" in
  intros c s' rs' G H; carry G.

(** Vectors with their integer value. *)
Definition hasz (s : bst) (rs : list fml) (l : bvec) (V : nenv -> Z) : Prop :=
  l <> [] /\ l ⊆ rs /\ forall E, sv (bits s E l) = V E.
Lemma hasz_of s rs l L : hasv s rs l L -> l <> [] -> hasz s rs l (fun E => sv (L E)).
Proof. intros [H D] N. split_and!; [done|done|]. intros E. by rewrite D. Qed.
Lemma hasz_bits s rs l V : hasz s rs l V -> exists L, hasv s rs l L /\ forall E, sv (L E) = V E.
Proof. intros (N&H&D). exists (fun E => bits s E l). done. Qed.
Lemma hasz_grows s rs s' rs' l V : grows s rs s' rs' -> hasz s rs l V -> hasz s' rs' l V.
Proof. intros G (N&H&D). split_and!; [done|by eapply grows_sub|]. intros E. rewrite <- D. f_equal. by eapply bits_kept. Qed.
Lemma hasz_ext s rs l V V' : hasz s rs l V -> (forall E, V E = V' E) -> hasz s rs l V'.
Proof. intros (N&H&D) X. split_and!; [done|done|]. intros E. by rewrite D. Qed.
Lemma hasz_trim s rs l V : hasz s rs l V -> hasz s rs (trim_bv l) V.
Proof. intros (N&H&D). split_and!; [by apply trim_nil|by apply trim_sub'|]. intros E. by rewrite trim_sv. Qed.
Ltac zcarry G :=
  cbv beta in *;
  repeat match goal with
    | H : hasz ?s ?rs _ _ |- _ => match type of G with grows s rs _ _ => apply (hasz_grows _ _ _ _ _ _ G) in H end
  end; carry G.
Ltac zstep L c H :=
  apply tri_bind; eapply tri_weaken; [eapply L; eassumption|];
  let s' := fresh "s" in let rs' := fresh "rs" in let G := fresh "G" in
  intros c s' rs' G H _; zcarry G.
Ltac zlast L H :=
  eapply tri_weaken; [eapply L; eassumption|];
  let c := fresh "c" in let s' := fresh "s" in let rs' := fresh "rs" in let G := fresh "G" in
  intros c s' rs' G H; zcarry G.

Lemma sx1_spec n l s rs L : l <> [] -> hasv s rs l L -> exists l' L', sx1 n l = Some l' /\ hasv s rs l' L' /\
  length l' = Nat.max n (length l) /\ head l' = head l /\ forall E, sv (L' E) = sv (L E).
Proof.
  intros Hn Hl. destruct l as [|f l]; [done|]. unfold sx1. cbn [head].
  destruct (n - length (f :: l))%nat as [|k] eqn:E.
  - exists (f :: l), L. split_and!; try done. lia.
  - destruct (hasv_uncons _ _ _ _ _ Hl) as (F&L'&HF&HL'&X).
    exists (pad (S k) f (f :: l)), (fun E => repeat (F E) (S k) ++ L E). split_and!; try done.
    + apply hasv_app; [|done]. destruct HF as [HF DF]. split; [by apply sub_rep|]. intros E0. by rewrite bits_rep, DF.
    + rewrite pad_length. lia.
    + intros E0. rewrite X. apply sv_rep. Qed.
Lemma h_sx2 l1 l2 s rs V1 V2 : st s rs -> hasz s rs l1 V1 -> hasz s rs l2 V2 ->
  tri (sx2 l1 l2) s rs (fun p s' rs' => hasz s' rs' p.1 V1 /\ hasz s' rs' p.2 V2 /\ length p.1 = length p.2 /\
    head p.1 = head l1 /\ head p.2 = head l2 /\ length p.1 = Nat.max (length l1) (length l2)).
Proof.
  intros S H1 H2. destruct (hasz_bits _ _ _ _ H1) as (L1&HL1&X1), (hasz_bits _ _ _ _ H2) as (L2&HL2&X2).
  destruct H1 as [N1 _], H2 as [N2 _].
  destruct (sx1_spec (length l2) l1 s rs L1 N1 HL1) as (a&A&Ea&Ha&La&Da&Va).
  destruct (sx1_spec (length l1) l2 s rs L2 N2 HL2) as (b&B&Eb&Hb&Lb&Db&Vb).
  unfold sx2. apply tri_bind. apply (tri_lift _ a); [done|done|]. intros _.
  apply tri_bind. apply (tri_lift _ b); [done|done|]. intros _. apply tri_ret; [done|]. cbn.
  assert (a <> []) by (intros ->; destruct l1; [done|]; cbn in La; lia).
  assert (b <> []) by (intros ->; destruct l2; [done|]; cbn in Lb; lia).
  split_and!; try done; try lia.
  - eapply hasz_ext; [by apply hasz_of|]. intros E. cbn. by rewrite Va.
  - eapply hasz_ext; [by apply hasz_of|]. intros E. cbn. by rewrite Vb.
Qed.
Lemma h_hd l s rs V (Q : fml -> bst -> list fml -> Prop) : st s rs -> hasz s rs l V ->
  (forall f, head l = Some f -> has s rs f (fun E => V E <? 0) -> Q f s rs) -> tri (hdM l) s rs Q.
Proof.
  intros S (N&Hl&D) H. destruct l as [|f r]; [done|]. apply (tri_lift _ f); [done|done|]. apply H; [done|].
  apply sub_cons in Hl as [Hf Hr]. split; [done|]. intros E. rewrite <- D. cbn. apply sv_sign. Qed.
