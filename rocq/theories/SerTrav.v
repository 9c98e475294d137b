(* The reader follows the writer through the graph. *)
From Coq Require Import ZArith List Ascii Bool Lia.
From Verif Require Import SerModel SerSpec SerNum SerThms.
Import ListNotations.
Open Scope Z_scope.

Lemma mem_in p l : mem p l = true <-> In p l.
Proof.
  unfold mem. rewrite existsb_exists. split.
  - intros (x & I & Ex). apply Pos.eqb_eq in Ex. subst. exact I.
  - intros I. exists p. split; [exact I|apply Pos.eqb_refl].
Qed.

Local Opaque put_ptr.

Section Trav.
Variables (h : ptr -> option node) (refs : Z -> option ptr).

Definition kids (n : node) : list ptr :=
  match n with
  | NApp a b | NCons a b => [a; b]
  | NRef r => match refs r with Some c => [c] | None => [] end
  | _ => []
  end.
Lemma kids_edge p n q : h p = Some n -> (In q (kids n) <-> edge h refs p q).
Proof.
  intros Hn. split.
  - intros I. destruct n; cbn in I; try contradiction.
    + destruct I as [<-|[<-|[]]]; [eapply E_app1|eapply E_app2]; eauto.
    + destruct I as [<-|[<-|[]]]; [eapply E_cons1|eapply E_cons2]; eauto.
    + destruct (refs r) as [c|] eqn:Er; [|destruct I]. destruct I as [<-|[]]. eapply E_ref; eauto.
  - intros Ed. inversion Ed as [? a b X|? a b X|? a b X|? a b X|? r c X Y]; subst; rewrite Hn in X; injection X as ->; cbn; auto.
    rewrite Y. left. reflexivity.
Qed.

Lemma write_kids_ext rec : (forall p w t w', rec p w = Some (t, w') -> ext w w') ->
  forall l w t w', write_kids rec l w = Some (t, w') -> ext w w'.
Proof.
  intros Hrec. induction l as [|p r IH]; intros w t w' H; cbn [write_kids] in H.
  - injection H as <- <-. apply ext_refl.
  - destruct (rec p w) as [[t1 w1]|] eqn:E1; [|discriminate].
    destruct (write_kids rec r w1) as [[t2 w2]|] eqn:E2; [|discriminate]. injection H as <- <-.
    eapply ext_trans; eauto.
Qed.

Lemma tagged_inv c o t w : tagged c o = Some (t, w) -> exists t', o = Some (t', w) /\ t = emit c ++ t'.
Proof. destruct o as [[t' w']|]; cbn; [|discriminate]. intros H. injection H as <- <-. eauto. Qed.

Lemma write_ptr_ext fuel : forall p w t w', write_ptr h refs fuel p w = Some (t, w') ->
  ext w w' /\ In p (w_seen w').
Proof.
  induction fuel as [|f IH]; intros p w t w' H; cbn [write_ptr] in H; [discriminate|].
  destruct (mem p (w_seen w)) eqn:M.
  - injection H as <- <-. split; [apply ext_refl|]. apply mem_in. exact M.
  - destruct (h p) as [n|] eqn:Hn; [|discriminate].
    set (w1 := mk_w (p :: w_seen w) (w_strs w) (w_bools w) (w_bexprs w)) in *.
    assert (X1 : ext w w1).
    { split; [intros x I; right; exact I|]. split; [apply prefix_refl|]. split; apply prefix_refl. }
    match type of H with match ?X with _ => _ end = _ => destruct X as [[t2 w2]|] eqn:EX; [|discriminate] end.
    injection H as <- <-.
    assert (IHe : forall p w t w', write_ptr h refs f p w = Some (t, w') -> ext w w').
    { intros ? ? ? ? G. exact (proj1 (IH _ _ _ _ G)). }
    assert (X2 : ext w1 w2).
    { assert (L : write_leaf n w1 = Some (t2, w2) -> ext w1 w2).
      { intros G. exact (proj2 (write_leaf_ext _ _ _ _ G)). }
      destruct n; try (apply L; exact EX).
      - apply tagged_inv in EX. destruct EX as (t' & G & _). eapply write_kids_ext; eauto.
      - apply tagged_inv in EX. destruct EX as (t' & G & _). eapply write_kids_ext; eauto.
      - destruct (refs r); [|discriminate].
        apply tagged_inv in EX. destruct EX as (t' & G & _). eapply write_kids_ext; eauto. }
    split; [eapply ext_trans; eauto|]. apply (proj1 X2). left. reflexivity.
Qed.

(* ---- the relation between the two ---- *)
Variables (B E : Z -> Z -> Prop) (tb : tables).
Hypothesis B_inj : forall f g f' g', B f f' -> B g g' -> f' = g' -> f = g.
Hypothesis streams : forall s, In s std_streams -> In s (t_streams tb).
Variable P : ptr -> Prop.
Hypothesis P_edge : forall p q, P p -> edge h refs p q -> P q.
Hypothesis P_ok : forall p n, P p -> h p = Some n -> savable n /\ faithful n.

Definition mapped (st : rstate) (x y : ptr) : Prop := old2new (r_map st) x = Some y.
Definition ref_rel (st : rstate) (r r' : Z) : Prop :=
  r' < s_nrefs (r_ses st) /\ exists c c', refs r = Some c /\ s_refs (r_ses st) r' = Some c' /\ mapped st c c'.
Definition good (st : rstate) (x y : ptr) : Prop :=
  exists n m, h x = Some n /\ s_heap (r_ses st) y = Some m /\ node_rel (mapped st) (ref_rel st) B E n m.

Record inv (lo : ptr) (stk : list ptr) (w : wstate) (st : rstate) : Prop := {
  i_dom : forall x, In x (w_seen w) <-> exists y, mapped st x y;
  i_rng : forall x y, mapped st x y -> (lo <= y < s_next (r_ses st))%positive;
  i_inj : forall x x' y, mapped st x y -> mapped st x' y -> x = x';
  i_good : forall x y, mapped st x y -> ~ In x stk -> good st x y;
  i_ref : forall x x' y y' r, mapped st x y -> mapped st x' y' -> ~ In x stk -> ~ In x' stk ->
          s_heap (r_ses st) y = Some (NRef r) -> s_heap (r_ses st) y' = Some (NRef r) -> y = y'
}.

(* What a call leaves alone. *)
Record grow (st st' : rstate) : Prop := {
  g_map : forall x y, mapped st x y -> mapped st' x y;
  g_next : (s_next (r_ses st) <= s_next (r_ses st'))%positive;
  g_heap : forall a, (a < s_next (r_ses st))%positive -> s_heap (r_ses st') a = s_heap (r_ses st) a;
  g_nrefs : s_nrefs (r_ses st) <= s_nrefs (r_ses st');
  g_refs : forall r, r < s_nrefs (r_ses st) -> s_refs (r_ses st') r = s_refs (r_ses st) r
}.
Lemma grow_refl st : grow st st.
Proof. split; intros; auto; try reflexivity; lia. Qed.
Lemma grow_trans a b c : grow a b -> grow b c -> grow a c.
Proof.
  intros [A1 A2 A3 A4 A5] [B1 B2 B3 B4 B5]. split; intros.
  - auto.
  - lia.
  - rewrite B3 by lia. apply A3. lia.
  - lia.
  - rewrite B5 by lia. apply A5. lia.
Qed.

Lemma node_rel_mono (R R' : ptr -> ptr -> Prop) (V V' : Z -> Z -> Prop) n m :
  (forall x y, R x y -> R' x y) -> (forall r s, V r s -> V' r s) ->
  node_rel R V B E n m -> node_rel R' V' B E n m.
Proof. intros HR HV H. destruct H; constructor; auto. Qed.

Lemma mapped_fun st x y y' : mapped st x y -> mapped st x y' -> y = y'.
Proof. unfold mapped. congruence. Qed.

(* The state on entering a node seen for the first time. *)
Lemma enter lo stk w st p : inv lo stk w st -> ~ In p (w_seen w) -> (lo <= s_next (r_ses st))%positive ->
  let new := s_next (r_ses st) in
  let st1 := mk_r ((p, new) :: r_map st) (snd (get_node (r_ses st))) in
  let w1 := mk_w (p :: w_seen w) (w_strs w) (w_bools w) (w_bexprs w) in
  inv lo (p :: stk) w1 st1 /\ grow st st1 /\ mapped st1 p new.
Proof.
  intros I Np Hlo new st1 w1.
  assert (Hp : forall y, ~ mapped st p y).
  { intros y M. apply Np. apply (i_dom _ _ _ _ I). eauto. }
  assert (M1 : forall x y, mapped st1 x y <-> (x = p /\ y = new) \/ mapped st x y).
  { intros x y. unfold mapped, st1. cbn. destruct (Pos.eqb_spec p x) as [->|N].
    - split; [intros G; injection G as <-; left; auto|]. intros [[_ ->]|G]; [reflexivity|]. exfalso. exact (Hp _ G).
    - split; [auto|]. intros [[G _]|G]; [congruence|exact G]. }
  split; [split|split].
  - intros x. cbn. rewrite (i_dom _ _ _ _ I). split.
    + intros [<-|[y M]]; [exists new|exists y]; apply M1; auto.
    + intros [y M]. apply M1 in M. destruct M as [[-> _]|M]; [auto|]. right. eauto.
  - intros x y M. apply M1 in M. destruct M as [[-> ->]|M].
    + cbn. unfold new. lia.
    + cbn. apply (i_rng _ _ _ _ I) in M. lia.
  - intros x x' y M M'. apply M1 in M. apply M1 in M'.
    destruct M as [[X1 X2]|M], M' as [[Y1 Y2]|M'].
    + congruence.
    + exfalso. apply (i_rng _ _ _ _ I) in M'. unfold new in X2. subst y. lia.
    + exfalso. apply (i_rng _ _ _ _ I) in M. unfold new in Y2. subst y. lia.
    + exact (i_inj _ _ _ _ I _ _ _ M M').
  - intros x y M Nx. apply M1 in M. destruct M as [[-> _]|M]; [exfalso; apply Nx; left; reflexivity|].
    destruct (i_good _ _ _ _ I x y M) as (n & m & Hn & Hm & Rl); [intros X; apply Nx; right; exact X|].
    exists n, m. split; [exact Hn|]. split; [exact Hm|].
    eapply node_rel_mono; [| |exact Rl].
    + intros a b G. apply M1. auto.
    + intros a b (G1 & c & c' & G2 & G3 & G4). split; [exact G1|]. exists c, c'. split; [exact G2|]. split; [exact G3|].
      apply M1. auto.
  - intros x x' y y' r M M' Nx Nx' Hy Hy'. apply M1 in M. apply M1 in M'.
    destruct M as [[-> _]|M]; [exfalso; apply Nx; left; reflexivity|].
    destruct M' as [[-> _]|M']; [exfalso; apply Nx'; left; reflexivity|].
    apply (i_ref _ _ _ _ I x x' y y' r M M'); auto; intros X; [apply Nx|apply Nx']; right; exact X.
  - split; cbn; intros; auto; try lia. apply M1. auto.
  - apply M1. auto.
Qed.

(* The state after the node has been filled in. *)
Lemma leave lo stk w st p new n m : inv lo (p :: stk) w st -> mapped st p new -> h p = Some n ->
  node_rel (mapped st) (ref_rel st) B E n m ->
  (forall r, m = NRef r -> forall x y, mapped st x y -> ~ In x (p :: stk) -> s_heap (r_ses st) y <> Some (NRef r)) ->
  inv lo stk w (mk_r (r_map st) (set_node new m (r_ses st))).
Proof.
  intros I Mp Hn Rl Rf. set (st' := mk_r (r_map st) (set_node new m (r_ses st))).
  assert (M1 : forall x y, mapped st' x y <-> mapped st x y) by reflexivity.
  assert (V1 : forall r s, ref_rel st r s -> ref_rel st' r s) by (intros r s G; exact G).
  assert (Hh : forall x y, mapped st x y -> x <> p -> s_heap (r_ses st') y = s_heap (r_ses st) y).
  { intros x y M N. cbn. destruct (Pos.eqb_spec y new) as [->|]; [|reflexivity].
    exfalso. apply N. exact (i_inj _ _ _ _ I _ _ _ M Mp). }
  assert (Hp : s_heap (r_ses st') new = Some m) by (cbn; rewrite Pos.eqb_refl; reflexivity).
  split.
  - exact (i_dom _ _ _ _ I).
  - exact (i_rng _ _ _ _ I).
  - exact (i_inj _ _ _ _ I).
  - intros x y M Nx. destruct (Pos.eq_dec x p) as [->|N].
    + assert (y = new) by exact (mapped_fun _ _ _ _ M Mp). subst y. exists n, m.
      split; [exact Hn|]. split; [exact Hp|]. exact Rl.
    + destruct (i_good _ _ _ _ I x y M) as (n' & m' & Hn' & Hm' & Rl').
      { intros [X|X]; [congruence|contradiction]. }
      exists n', m'. split; [exact Hn'|]. split; [rewrite (Hh x y M N); exact Hm'|exact Rl'].
  - intros x x' y y' r M M' Nx Nx' Hy Hy'.
    destruct (Pos.eq_dec x p) as [->|N], (Pos.eq_dec x' p) as [->|N'].
    + exact (mapped_fun _ _ _ _ M M').
    + exfalso. assert (y = new) by exact (mapped_fun _ _ _ _ M Mp). subst y.
      rewrite Hp in Hy. injection Hy as ->. rewrite (Hh x' y' M' N') in Hy'.
      apply (Rf r eq_refl x' y' M'); [|exact Hy']. intros [X|X]; [congruence|contradiction].
    + exfalso. assert (y' = new) by exact (mapped_fun _ _ _ _ M' Mp). subst y'.
      rewrite Hp in Hy'. injection Hy' as ->. rewrite (Hh x y M N) in Hy.
      apply (Rf r eq_refl x y M); [|exact Hy]. intros [X|X]; [congruence|contradiction].
    + rewrite (Hh x y M N) in Hy. rewrite (Hh x' y' M' N') in Hy'.
      apply (i_ref _ _ _ _ I x x' y y' r M M'); auto; intros [X|X]; congruence.
Qed.

Lemma leave_grow st0 st new m : (s_next (r_ses st0) <= new)%positive -> grow st0 st ->
  grow st0 (mk_r (r_map st) (set_node new m (r_ses st))).
Proof.
  intros Hn [G1 G2 G3 G4 G5]. split; auto. intros a Ha. cbn.
  destruct (Pos.eqb_spec a new); [lia|]. apply G3. exact Ha.
Qed.

(* A change of the number of caches does not matter. *)
Lemma inv_caches lo stk w st ses' : inv lo stk w st -> same_but_caches (r_ses st) ses' ->
  inv lo stk w (mk_r (r_map st) ses').
Proof.
  intros I (S1 & S2 & S3 & S4).
  split.
  - exact (i_dom _ _ _ _ I).
  - intros x y M. cbn. rewrite S2. exact (i_rng _ _ _ _ I x y M).
  - exact (i_inj _ _ _ _ I).
  - intros x y M N. destruct (i_good _ _ _ _ I x y M N) as (n & m & Hn & Hm & Rl).
    exists n, m. split; [exact Hn|]. split; [cbn; rewrite S1; exact Hm|].
    eapply node_rel_mono; [| |exact Rl]; [auto|].
    intros r s (G1 & c & c' & G2 & G3 & G4). split; [cbn; rewrite S4; exact G1|].
    exists c, c'. split; [exact G2|]. split; [cbn; rewrite S3; exact G3|exact G4].
  - intros x x' y y' r M M' N N'. cbn. rewrite S1. exact (i_ref _ _ _ _ I x x' y y' r M M' N N').
Qed.
Lemma grow_caches st0 st ses' : grow st0 st -> same_but_caches (r_ses st) ses' -> grow st0 (mk_r (r_map st) ses').
Proof.
  intros [G1 G2 G3 G4 G5] (S1 & S2 & S3 & S4). split; cbn; auto; try rewrite S2; try rewrite S4; auto.
  - intros a Ha. rewrite S1. auto.
  - intros r Hr. rewrite S3. auto.
Qed.

(* A new reference variable. *)
Lemma inv_ref lo stk w st c : inv lo stk w st ->
  inv lo stk w (mk_r (r_map st) (snd (make_ref c (r_ses st)))).
Proof.
  intros I. split.
  - exact (i_dom _ _ _ _ I).
  - exact (i_rng _ _ _ _ I).
  - exact (i_inj _ _ _ _ I).
  - intros x y M N. destruct (i_good _ _ _ _ I x y M N) as (n & m & Hn & Hm & Rl).
    exists n, m. split; [exact Hn|]. split; [exact Hm|].
    eapply node_rel_mono; [| |exact Rl]; [auto|].
    intros r s (G1 & d & d' & G2 & G3 & G4). split; [cbn; lia|].
    exists d, d'. split; [exact G2|]. split; [|exact G4]. cbn.
    destruct (Z.eqb_spec s (s_nrefs (r_ses st))); [lia|exact G3].
  - exact (i_ref _ _ _ _ I).
Qed.
Lemma grow_ref st0 st c : grow st0 st -> grow st0 (mk_r (r_map st) (snd (make_ref c (r_ses st)))).
Proof.
  intros [G1 G2 G3 G4 G5]. split; cbn; auto; [lia|]. intros r Hr.
  destruct (Z.eqb_spec r (s_nrefs (r_ses st))); [lia|]. auto.
Qed.

Lemma read_ptr_step f s st old s1 : get_ptr s = Some (Zpos old, s1) ->
  read_ptr tb (S f) s st =
    match old2new (r_map st) old with
    | Some new => Some (new, s1, st)
    | None =>
        let '(new, ses1) := get_node (r_ses st) in
        let st1 := mk_r ((old, new) :: r_map st) ses1 in
        match s1 with
        | c :: _ :: s2 =>
            match
              (if Ascii.eqb c "A" || Ascii.eqb c "C" then
                match read_ptr tb f s2 st1 with
                | None => None
                | Some (a, s3, st2) =>
                    match read_ptr tb f s3 st2 with
                    | None => None
                    | Some (b, s4, st3) =>
                        Some (if Ascii.eqb c "A" then NApp a b else NCons a b, s4, st3)
                    end
                end
              else if Ascii.eqb c "R" then
                match read_ptr tb f s2 st1 with
                | None => None
                | Some (a, s3, st2) =>
                    let '(r, ses2) := make_ref a (r_ses st2) in
                    Some (NRef r, s3, mk_r (r_map st2) ses2)
                end
              else
                match read_leaf tb c s2 ses1 with
                | Some (n, s3, ses2) => Some (n, s3, mk_r (r_map st1) ses2)
                | None => None
                end)
            with
            | Some (n, s3, st2) => Some (new, s3, mk_r (r_map st2) (set_node new n (r_ses st2)))
            | None => None
            end
        | _ => None
        end
    end.
Proof. intros H. cbn [read_ptr]. rewrite H. reflexivity. Qed.

Lemma write_ptr_nows fuel p w t w' rest : write_ptr h refs fuel p w = Some (t, w') -> nows (t ++ rest).
Proof.
  destruct fuel as [|f]; cbn [write_ptr]; [discriminate|]. intros H.
  destruct (mem p (w_seen w)).
  - injection H as <- <-. apply put_ptr_nows.
  - destruct (h p); [|discriminate].
    match type of H with match ?X with _ => _ end = _ => destruct X as [[t2 w2]|]; [|discriminate] end.
    injection H as <- <-. rewrite <- app_assoc. apply put_ptr_nows.
Qed.

Definition follows (f : nat) : Prop :=
  forall p w t w', write_ptr h refs f p w = Some (t, w') -> good_tables B E tb w' -> P p ->
  forall lo stk st rest, inv lo stk w st -> (lo <= s_next (r_ses st))%positive -> nows rest ->
  exists q st', read_ptr tb f (t ++ rest) st = Some (q, rest, st')
    /\ inv lo stk w' st' /\ mapped st' p q /\ grow st st'.

Lemma ref_fresh lo stk w st x y : inv lo stk w st -> mapped st x y -> ~ In x stk ->
  s_heap (r_ses st) y <> Some (NRef (s_nrefs (r_ses st))).
Proof.
  intros I M N X. destruct (i_good _ _ _ _ I x y M N) as (n & m & _ & Hm & Rl).
  rewrite X in Hm. injection Hm as <-. inversion Rl as [| | | | | | | | |r r' V| | |]; subst.
  destruct V as [V _]. lia.
Qed.

Lemma follows_step f : follows f -> follows (S f).
Proof.
  intros IH p w t w' W T Pp lo stk st rest I Hlo Hr.
  cbn [write_ptr] in W. destruct (mem p (w_seen w)) eqn:M.
  - injection W as <- <-. apply mem_in in M. apply (i_dom _ _ _ _ I) in M. destruct M as [y My].
    exists y, st. rewrite (read_ptr_step _ _ _ _ _ (get_ptr_put p rest Hr)).
    rewrite My. split; [reflexivity|]. split; [exact I|]. split; [exact My|apply grow_refl].
  - assert (Np : ~ In p (w_seen w)) by (intros X; apply mem_in in X; congruence).
    destruct (h p) as [n|] eqn:Hn; [|discriminate].
    set (w1 := mk_w (p :: w_seen w) (w_strs w) (w_bools w) (w_bexprs w)) in *.
    match type of W with match ?X with _ => _ end = _ => destruct X as [[t2 w2]|] eqn:EX; [|discriminate] end.
    injection W as <- <-.
    destruct (enter lo stk w st p I Np Hlo) as (I1 & G1 & Mp). fold w1 in I1.
    set (new := s_next (r_ses st)) in *.
    set (st1 := mk_r ((p, new) :: r_map st) (snd (get_node (r_ses st)))) in *.
    assert (Hlo1 : (lo <= s_next (r_ses st1))%positive) by (cbn; lia).
    assert (Hno : old2new (r_map st) p = None).
    { destruct (old2new (r_map st) p) as [y|] eqn:Ey; [|reflexivity]. exfalso. apply Np.
      apply (i_dom _ _ _ _ I). exists y. exact Ey. }
    (* two children *)
    assert (two : forall c a b t', (c = "A"%char /\ n = NApp a b) \/ (c = "C"%char /\ n = NCons a b) ->
      write_kids (write_ptr h refs f) [a; b] w1 = Some (t', w2) -> t2 = emit c ++ t' ->
      exists q st', read_ptr tb (S f) ((put_ptr p ++ t2) ++ rest) st = Some (q, rest, st')
        /\ inv lo stk w2 st' /\ mapped st' p q /\ grow st st').
    { intros c a b t' Hc K Et. cbn [write_kids] in K.
      destruct (write_ptr h refs f a w1) as [[ta wa]|] eqn:Ea; [|discriminate].
      destruct (write_ptr h refs f b wa) as [[tc wb]|] eqn:Eb; [|discriminate].
      injection K as <- <-.
      destruct (write_ptr_ext _ _ _ _ _ Eb) as [Xb _].
      assert (Pa : P a /\ P b).
      { split; eapply P_edge; try exact Pp; destruct Hc as [[_ ->]|[_ ->]];
          [eapply E_app1|eapply E_cons1|eapply E_app2|eapply E_cons2]; eauto. }
      destruct (IH a w1 ta wa Ea (good_tables_ext _ _ _ _ _ Xb T) (proj1 Pa) lo (p :: stk) st1 (tc ++ rest) I1 Hlo1
                  (write_ptr_nows _ _ _ _ _ _ Eb)) as (qa & st2 & Ra & I2 & Ma & Ga).
      assert (Hlo2 : (lo <= s_next (r_ses st2))%positive) by (pose proof (g_next _ _ Ga); lia).
      destruct (IH b wa tc wb Eb T (proj2 Pa) lo (p :: stk) st2 rest I2 Hlo2 Hr) as (qb & st3 & Rb & I3 & Mb & Gb).
      exists new. set (m := if Ascii.eqb c "A" then NApp qa qb else NCons qa qb).
      exists (mk_r (r_map st3) (set_node new m (r_ses st3))).
      assert (Gab := grow_trans _ _ _ Ga Gb).
      assert (M3p : mapped st3 p new) by (apply (g_map _ _ Gab); exact Mp).
      assert (Rl : node_rel (mapped st3) (ref_rel st3) B E n m).
      { assert (Ma3 := g_map _ _ Gb _ _ Ma).
        unfold m. destruct Hc as [[-> ->]|[-> ->]]; constructor; auto. }
      split.
      { rewrite app_nil_r in Et. subst t2. rewrite <- !app_assoc.
        assert (Z1 : nows (emit c ++ ta ++ tc ++ rest)).
        { destruct Hc as [[-> _]|[-> _]]; apply nows_cons; reflexivity. }
        rewrite (read_ptr_step _ _ _ _ _ (get_ptr_put p _ Z1)). rewrite Hno.
        unfold emit. cbn [app get_node].
        change (mk_r ((p, s_next (r_ses st)) :: r_map st)
          {| s_heap := s_heap (r_ses st); s_next := Pos.succ (s_next (r_ses st)); s_refs := s_refs (r_ses st);
             s_nrefs := s_nrefs (r_ses st); s_caches := s_caches (r_ses st) |}) with st1.
        assert (Z2 : Ascii.eqb c "A" || Ascii.eqb c "C" = true) by (destruct Hc as [[-> _]|[-> _]]; reflexivity).
        rewrite Z2. rewrite Ra, Rb. reflexivity. }
      split.
      { eapply leave; eauto. intros r X. exfalso. unfold m in X. destruct (Ascii.eqb c "A"); discriminate. }
      split; [exact M3p|].
      apply leave_grow; [unfold new; lia|]. eapply grow_trans; [exact G1|exact Gab]. }
    (* leaves *)
    assert (leaf : write_leaf n w1 = Some (t2, w2) ->
      exists q st', read_ptr tb (S f) ((put_ptr p ++ t2) ++ rest) st = Some (q, rest, st')
        /\ inv lo stk w2 st' /\ mapped st' p q /\ grow st st').
    { intros L. destruct (P_ok p n Pp Hn) as [Sv Ff].
      destruct (read_leaf_write B E tb B_inj streams n w1 t2 w2 rest (r_ses st1) L T Sv Ff Hr)
        as (c & t' & m & ses' & -> & C1 & C2 & C3 & C4 & Rd & Rl & Sb & Nr).
      assert (Xw := write_leaf_ext _ _ _ _ L). destruct Xw as [Sw _].
      set (st2 := mk_r (r_map st1) ses').
      assert (I1' : inv lo (p :: stk) w2 st1).
      { destruct I1 as [J1 J2 J3 J4 J5]. split; auto. intros x. rewrite Sw. apply J1. }
      assert (I2 : inv lo (p :: stk) w2 st2) by (apply inv_caches; [exact I1'|exact Sb]).
      exists new, (mk_r (r_map st2) (set_node new m (r_ses st2))).
      split.
      { rewrite <- app_assoc. cbn [app].
        assert (Z1 : nows (c :: nl :: t' ++ rest)) by (apply nows_cons; exact C4).
        rewrite (read_ptr_step _ _ _ _ _ (get_ptr_put p _ Z1)). rewrite Hno.
        cbn [get_node]. rewrite C1, C2, C3. cbn [orb].
        change {| s_heap := s_heap (r_ses st); s_next := Pos.succ (s_next (r_ses st)); s_refs := s_refs (r_ses st);
             s_nrefs := s_nrefs (r_ses st); s_caches := s_caches (r_ses st) |} with (r_ses st1).
        rewrite Rd. reflexivity. }
      split.
      { eapply leave; eauto. intros r X. exfalso. exact (Nr r X). }
      split; [exact Mp|].
      apply leave_grow; [unfold new; lia|]. apply grow_caches; [exact G1|exact Sb]. }
    destruct n as [a b| |a b| | | | | | | |r| | |]; try (apply leaf; exact EX).
    + apply tagged_inv in EX. destruct EX as (t' & K & Et). apply (two "A"%char a b t'); auto.
    + apply tagged_inv in EX. destruct EX as (t' & K & Et). apply (two "C"%char a b t'); auto.
    + destruct (refs r) as [c|] eqn:Er; [|discriminate].
      apply tagged_inv in EX. destruct EX as (t' & K & Et). cbn [write_kids] in K.
      destruct (write_ptr h refs f c w1) as [[ta wa]|] eqn:Ea; [|discriminate].
      injection K as <- <-.
      assert (Pc : P c) by (eapply P_edge; [exact Pp|eapply E_ref; eauto]).
      destruct (IH c w1 ta wa Ea T Pc lo (p :: stk) st1 rest I1 Hlo1 Hr) as (qa & st2 & Ra & I2 & Ma & Ga).
      set (st3 := mk_r (r_map st2) (snd (make_ref qa (r_ses st2)))).
      assert (I3 : inv lo (p :: stk) wa st3) by (apply inv_ref; exact I2).
      exists new, (mk_r (r_map st3) (set_node new (NRef (s_nrefs (r_ses st2))) (r_ses st3))).
      assert (M3p : mapped st3 p new) by (apply (g_map _ _ Ga); exact Mp).
      split.
      { rewrite app_nil_r in Et. subst t2. rewrite <- !app_assoc.
        assert (Z1 : nows (emit "R" ++ ta ++ rest)) by (apply nows_cons; reflexivity).
        rewrite (read_ptr_step _ _ _ _ _ (get_ptr_put p _ Z1)). rewrite Hno.
        unfold emit. cbn [app get_node].
        change (mk_r ((p, s_next (r_ses st)) :: r_map st)
          {| s_heap := s_heap (r_ses st); s_next := Pos.succ (s_next (r_ses st)); s_refs := s_refs (r_ses st);
             s_nrefs := s_nrefs (r_ses st); s_caches := s_caches (r_ses st) |}) with st1.
        change (Ascii.eqb "R" "A" || Ascii.eqb "R" "C") with false. change (Ascii.eqb "R" "R") with true.
        cbv beta iota. rewrite Ra. cbn [make_ref]. reflexivity. }
      split.
      { eapply leave; eauto.
        - constructor. split; [cbn; lia|]. exists c, qa. split; [exact Er|]. split.
          + cbn. rewrite Z.eqb_refl. reflexivity.
          + exact Ma.
        - intros r0 X x y Mx Nx. injection X as <-.
          exact (ref_fresh lo (p :: stk) wa st2 x y I2 Mx Nx). }
      split; [exact M3p|].
      apply leave_grow; [unfold new; lia|]. apply grow_ref. eapply grow_trans; [exact G1|exact Ga].
Qed.

Lemma follows_all f : follows f.
Proof.
  induction f as [|f IH]; [|apply follows_step; exact IH].
  intros p w t w' W. discriminate.
Qed.
End Trav.
