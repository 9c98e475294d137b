(* What compile_expr adds to the circuit: composites, nodes, drivers and fanouts. *)
From Coq Require Import String List Arith ZArith Bool Lia Permutation.
From Verif Require Import FsmOps FsmRel FsmBool FsmWord SteModel SteSim CompModel CompSpec CompKind CompThms.
Import ListNotations.

Definition shift (pd : bool) (t : Z) : Z := if pd then (t + 1)%Z else t.
Definition holds (C : comp) (x : Z -> nat -> bool) : Prop :=
  forall t, admits (c_op C) (c_size C) (map (x t) (c_ins C)) (map (x (shift (c_phase C) t)) (c_outs C)).
Lemma holds_ext C x y : (forall t n, In n (c_ins C) \/ In n (c_outs C) -> x t n = y t n) -> holds C x -> holds C y.
Proof.
  intros E H t.
  rewrite <- (map_ext_in (x t) (y t) (c_ins C)) by auto.
  rewrite <- (map_ext_in (x (shift (c_phase C) t)) (y (shift (c_phase C) t)) (c_outs C)) by auto. apply H.
Qed.
Lemma mem_In n l : mem n l = true <-> In n l.
Proof.
  unfold mem. rewrite existsb_exists. split.
  - intros [k [H E]]. apply Nat.eqb_eq in E. now subst.
  - intros H. exists n. now rewrite Nat.eqb_refl.
Qed.
Lemma mem_not n l : mem n l = false <-> ~ In n l.
Proof. rewrite <- mem_In. destruct (mem n l); split; auto; try discriminate. intros H. now destruct H. Qed.

(* s' is s with the composites news.  They drive own and the new nodes, and read vars and
   the new nodes. *)
Record grows (s s' : cst) (own vars : list nat) (news : list comp) : Prop := Grows {
  g_nn : s_nn s <= s_nn s';
  g_comps : s_comps s' = s_comps s ++ news;
  g_outs : Permutation (flat_map c_outs news) (own ++ seq (s_nn s) (s_nn s' - s_nn s));
  g_drv1 : forall i C n, nth_error news i = Some C -> In n (c_outs C) ->
             s_drv s' n = Some (length (s_comps s) + i);
  g_drv2 : forall n, ~ In n (flat_map c_outs news) -> s_drv s' n = s_drv s n;
  g_fan1 : forall n k, In k (s_fan s n) -> In k (s_fan s' n);
  g_fan2 : forall i C n, nth_error news i = Some C -> In n (c_ins C) -> In (length (s_comps s) + i) (s_fan s' n);
  g_ins : forall C i, In C news -> In i (c_ins C) -> In i vars \/ s_nn s <= i < s_nn s';
  g_lvl : forall C i o, In C news -> In i (c_ins C) -> In o (c_outs C) -> In i vars \/ In o own \/ o < i }.

Lemma grows_out s s' own vars news C n : grows s s' own vars news -> In C news -> In n (c_outs C) ->
  In n own \/ s_nn s <= n < s_nn s'.
Proof.
  intros G HC Hn. assert (Q : In n (flat_map c_outs news)) by (apply in_flat_map; eauto).
  apply (Permutation_in _ (g_outs _ _ _ _ _ G)) in Q. apply in_app_or in Q as [Q|Q]; auto. apply in_seq in Q.
  pose proof (g_nn _ _ _ _ _ G). right. lia.
Qed.
Lemma grows_refl s vars : grows s s [] vars [].
Proof.
  split; cbn; auto; try easy.
  - now rewrite app_nil_r.
  - now rewrite Nat.sub_diag.
  - intros i C n E. destruct i; discriminate.
  - intros i C n E. destruct i; discriminate.
Qed.
Lemma grows_vars s s' own vars vars' news : incl vars vars' -> grows s s' own vars news -> grows s s' own vars' news.
Proof.
  intros I [A B C D E F G H K]. split; auto.
  - intros c i Hc Hi. destruct (H c i Hc Hi); auto.
  - intros c i o Hc Hi Ho. destruct (K c i o Hc Hi Ho); auto.
Qed.
Lemma grows_app s s1 s2 o1 o2 v1 v2 n1 n2 : grows s s1 o1 v1 n1 -> grows s1 s2 o2 v2 n2 ->
  (forall n, In n o1 -> n < s_nn s1) -> (forall n, In n o2 -> ~ In n o1 /\ n < s_nn s) ->
  grows s s2 (o1 ++ o2) (v1 ++ v2) (n1 ++ n2).
Proof.
  intros G1 G2 L1 D. pose proof (g_nn _ _ _ _ _ G1) as N1. pose proof (g_nn _ _ _ _ _ G2) as N2.
  assert (O1 : forall n, In n (flat_map c_outs n1) -> In n o1 \/ s_nn s <= n < s_nn s1).
  { intros n H. apply in_flat_map in H as [C [HC Hn]]. eapply grows_out; eauto. }
  assert (O2 : forall n, In n (flat_map c_outs n2) -> In n o2 \/ s_nn s1 <= n < s_nn s2).
  { intros n H. apply in_flat_map in H as [C [HC Hn]]. eapply grows_out; eauto. }
  assert (DJ : forall n, In n (flat_map c_outs n1) -> ~ In n (flat_map c_outs n2)).
  { intros n A B. apply O1 in A. apply O2 in B. destruct A as [A|A], B as [B|B].
    - now apply (D n B).
    - specialize (L1 n A). lia.
    - pose proof (D n B). lia.
    - lia. }
  split.
  - lia.
  - rewrite (g_comps _ _ _ _ _ G2), (g_comps _ _ _ _ _ G1). now rewrite app_assoc.
  - rewrite flat_map_app, (g_outs _ _ _ _ _ G1), (g_outs _ _ _ _ _ G2).
    replace (s_nn s2 - s_nn s) with ((s_nn s1 - s_nn s) + (s_nn s2 - s_nn s1)) by lia.
    rewrite seq_app. replace (s_nn s + (s_nn s1 - s_nn s)) with (s_nn s1) by lia.
    rewrite <- !app_assoc. apply Permutation_app_head. rewrite !app_assoc. apply Permutation_app_tail.
    apply Permutation_app_comm.
  - intros i C n E H. destruct (Nat.lt_ge_cases i (length n1)) as [L|L].
    + rewrite nth_error_app1 in E by assumption. rewrite (g_drv2 _ _ _ _ _ G2).
      * eapply (g_drv1 _ _ _ _ _ G1); eauto.
      * apply DJ. apply in_flat_map. exists C. split; auto. eapply nth_error_In, E.
    + rewrite nth_error_app2 in E by assumption. rewrite (g_drv1 _ _ _ _ _ G2 _ _ _ E H).
      rewrite (g_comps _ _ _ _ _ G1), app_length. f_equal. lia.
  - intros n H. rewrite flat_map_app in H. rewrite (g_drv2 _ _ _ _ _ G2), (g_drv2 _ _ _ _ _ G1); auto;
      intros Q; apply H; apply in_or_app; auto.
  - intros n k H. apply (g_fan1 _ _ _ _ _ G2), (g_fan1 _ _ _ _ _ G1), H.
  - intros i C n E H. destruct (Nat.lt_ge_cases i (length n1)) as [L|L].
    + rewrite nth_error_app1 in E by assumption. apply (g_fan1 _ _ _ _ _ G2). eapply (g_fan2 _ _ _ _ _ G1); eauto.
    + rewrite nth_error_app2 in E by assumption. pose proof (g_fan2 _ _ _ _ _ G2 _ _ _ E H) as Q.
      rewrite (g_comps _ _ _ _ _ G1), app_length in Q. replace (length (s_comps s) + i) with (length (s_comps s) + length n1 + (i - length n1)) by lia.
      exact Q.
  - intros C i HC Hi. apply in_app_or in HC as [HC|HC].
    + destruct (g_ins _ _ _ _ _ G1 C i HC Hi); [left; apply in_or_app; auto|right; lia].
    + destruct (g_ins _ _ _ _ _ G2 C i HC Hi); [left; apply in_or_app; auto|right; lia].
  - intros C i o HC Hi Ho. apply in_app_or in HC as [HC|HC].
    + destruct (g_lvl _ _ _ _ _ G1 C i o HC Hi Ho) as [Q|[Q|Q]]; auto; [left|right; left]; apply in_or_app; auto.
    + destruct (g_lvl _ _ _ _ _ G2 C i o HC Hi Ho) as [Q|[Q|Q]]; auto; [left|right; left]; apply in_or_app; auto.
Qed.

Lemma set_nth_mid {A} (a : list A) x y b : set_nth (a ++ x :: b) (length a) y = a ++ y :: b.
Proof. induction a as [|z a IH]; cbn; [reflexivity|]. now f_equal. Qed.
Lemma add_fan_in k ins f n j : In j (f n) -> In j (add_fan k ins f n).
Proof. unfold add_fan. destruct (_ && _); cbn; auto. Qed.
Lemma add_fan_new k ins f n : In n ins -> In k (add_fan k ins f n).
Proof.
  intros H. apply mem_In in H. unfold add_fan. rewrite H. cbn. destruct (mem k (f n)) eqn:E; cbn; auto.
  now apply mem_In.
Qed.
(* the composite of an expression, after those of its operands *)
Lemma grows_node s s2 outs vars news C0 C : grows (push C0 (drive outs s)) s2 [] vars news ->
  c_outs C = outs -> (forall n, In n outs -> n < s_nn s) ->
  (forall n, In n (c_ins C) -> In n vars \/ s_nn s <= n < s_nn s2) ->
  grows s (fill (length (s_comps s)) C s2) outs vars (C :: news).
Proof.
  intros G EO LO HI. pose proof (g_nn _ _ _ _ _ G) as N. pose proof (g_comps _ _ _ _ _ G) as GC.
  cbn [push drive s_comps s_nn] in N, GC. rewrite <- app_assoc in GC. cbn [app] in GC.
  assert (O : forall n, In n (flat_map c_outs news) -> s_nn s <= n).
  { intros n H. apply in_flat_map in H as [D [HD Hn]]. destruct (grows_out _ _ _ _ _ D n G HD Hn) as [[]|Q]. cbn in Q. lia. }
  split; cbn [fill s_nn s_comps s_drv s_fan].
  - exact N.
  - rewrite GC. apply set_nth_mid.
  - cbn [flat_map]. rewrite EO. apply Permutation_app_head. apply (g_outs _ _ _ _ _ G).
  - intros [|i] D n E H; cbn in E.
    + injection E as <-. rewrite EO in H. rewrite (g_drv2 _ _ _ _ _ G).
      * cbn [push drive s_drv]. rewrite (proj2 (mem_In n outs) H). f_equal. lia.
      * intros Q. apply O in Q. specialize (LO n H). lia.
    + rewrite (g_drv1 _ _ _ _ _ G i D n E H). cbn [push drive s_comps]. rewrite app_length. cbn [length]. f_equal. lia.
  - intros n H. cbn [flat_map] in H. rewrite EO in H. rewrite (g_drv2 _ _ _ _ _ G).
    + cbn [push drive s_drv]. rewrite (proj2 (mem_not n outs)); auto. intros Q. apply H, in_or_app. auto.
    + intros Q. apply H, in_or_app. auto.
  - intros n k H. apply add_fan_in. apply (g_fan1 _ _ _ _ _ G). exact H.
  - intros [|i] D n E H; cbn in E.
    + injection E as <-. rewrite Nat.add_0_r. now apply add_fan_new.
    + apply add_fan_in. pose proof (g_fan2 _ _ _ _ _ G i D n E H) as Q. cbn [push drive s_comps] in Q.
      rewrite app_length in Q. cbn [length] in Q. now replace (length (s_comps s) + S i) with (length (s_comps s) + 1 + i) by lia.
  - intros D i [<-|HD] Hi; [auto|]. apply (g_ins _ _ _ _ _ G D i HD Hi).
  - intros D i o [<-|HD] Hi Ho.
    + right. left. now rewrite <- EO.
    + destruct (g_lvl _ _ _ _ _ G D i o HD Hi Ho) as [Q|[[]|Q]]; auto.
Qed.
Lemma grows_drive s s' outs vars news : grows (drive outs s) s' outs vars news -> grows s s' outs vars news.
Proof.
  intros G. destruct G as [A B C D E F H I J]. split; auto.
  intros n Q. rewrite (E n Q). cbn [drive s_drv]. rewrite (proj2 (mem_not n outs)); auto.
  intros X. apply Q. apply (Permutation_in _ (Permutation_sym C)). apply in_or_app. auto.
Qed.
(* a temporary: its nodes become new nodes *)
Lemma grows_declare s s' sz vars news : 0 < sz ->
  grows (snd (declare sz s)) s' (fst (declare sz s)) vars news -> grows s s' [] vars news.
Proof.
  intros P G. assert (DS : dsize sz = sz) by (unfold dsize; now destruct (Nat.eqb_spec sz 0); [lia|]).
  destruct G as [A B C D E F H I J]. cbn [declare fst snd s_nn s_comps s_drv s_fan] in *. rewrite DS in *. split; auto.
  - lia.
  - rewrite C. cbn [app]. replace (s_nn s' - s_nn s) with (sz + (s_nn s' - (s_nn s + sz))) by lia. now rewrite seq_app.
  - intros X i HX Hi. destruct (I X i HX Hi) as [Q|Q]; auto. right. lia.
  - intros X i o HX Hi Ho. destruct (J X i o HX Hi Ho) as [Q|[Q|Q]]; auto. apply in_seq in Q.
    destruct (I X i HX Hi) as [R|R]; auto. right. right. lia.
Qed.
