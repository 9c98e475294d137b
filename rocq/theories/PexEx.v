(* Designs for the examples and refutations of Pex_Props.v. *)
From Coq Require Import ZArith List Bool Ascii String Lia Permutation.
From Verif Require Import IlistModel IlistSpec IlistThms VnameModel VnameThms VnameMerge PexModel PexSpec PexName PexThms PexFold.
Import ListNotations.
Open Scope string_scope.
Open Scope list_scope.

Definition nm (s : string) : chars := list_ascii_of_string s.
Definition bind (f : string) (l : list string) : fa := (nm f, map nm l).
Definition hd_ (n : string) (i o : list fa) (ints : list string) : head := Head (nm n) [] false i o (map nm ints).

(* A leaf says that one of its wires has one value. *)
Definition says := (chars * bool)%type.
Definition holds (f : says) (e : chars -> bool) : Prop := e (fst f) = snd f.
Definition leaf (n : string) (i o : list fa) (w : string) (b : bool) : pex says := Leaf (hd_ n i o []) (nm w, b).

Definition env_of (l : list string) (s : chars) : bool := negb (existsb (fun x => chars_eqb s (nm x)) l).
Definition one_ (c : ascii) : bool := true.

Lemma env_proper : forall l, (forall x c, In x l -> nm x <> const [c]) -> proper one_ (env_of l).
Proof.
  intros l H c _. unfold env_of, one_. rewrite negb_true_iff. apply not_true_is_false. intros E.
  apply existsb_exists in E as [x [I E]]. apply chars_eqb_eq in E. exact (H x c I (eq_sym E)).
Qed.

Ltac word_tac := split; [discriminate|split; [repeat (constructor; [repeat split; discriminate|]); constructor|exact I]].
Ltac wire_one n := exists (nm n), None; split; [word_tac|split; [exact I|reflexivity]].
Ltac wire_vec n rs := exists (nm n), (Some (rs, [])); split; [word_tac|split; [split; [discriminate|constructor]|reflexivity]].
Ltac simple_one n := exists (nm n), None; split; [word_tac|split; [exact I|split; [reflexivity|exact I]]].

Lemma known_one : forall x, wire x -> known x.
Proof. intros x W. now left. Qed.

(* Scopes of concrete designs: all names are wires, and the actuals' scalars are found by
   computation. *)
Definition scope_check (h : head) (l : list (pex says)) : bool :=
  forallb (fun c => forallb (fun x => forallb (fun s => mem s (flat_map expand (wires h))) (expand x)) (acts c)) l.

Lemma scoped_check : forall h l, Forall wire (wires h) -> (forall c, In c l -> Forall wire (acts c)) ->
  scope_check h l = true -> scoped h l.
Proof.
  intros h l W A C. split; [exact W|]. intros c a x IC IA IX. left.
  assert (X : In x (acts c)) by (apply in_flat_map; exists a; auto).
  assert (WX : wire x) by (specialize (A c IC); rewrite Forall_forall in A; auto).
  split; [exact WX|]. intros ss s SS I. rewrite <- (stands_expand _ _ SS) in I.
  apply in_names_expand; [eapply Forall_impl; [|exact W]; intros; now left|].
  unfold scope_check in C. rewrite forallb_forall in C. specialize (C c IC). rewrite forallb_forall in C.
  specialize (C x X). rewrite forallb_forall in C. apply mem_in. auto.
Qed.

Lemma not_scoped : forall h (l : list (pex says)) c a x s, In c l -> In a (h_inps (head_of c) ++ h_outs (head_of c)) -> In x (snd a) ->
  wire x -> In s (expand x) -> ~ In s (flat_map expand (wires h)) -> ~ scoped h l.
Proof.
  intros h l c a x s C A X W S N SC.
  assert (IX : In x (acts c)) by (apply in_flat_map; exists a; auto).
  destruct (scoped_acts h l c x SC C IX) as [[_ Q]|Q]; [apply N; auto|]. now apply (wire_not_const x).
Qed.

(* An instance with one scalar wire at each port. *)
Lemma child_one : forall (e e' : chars -> bool) c, proper one_ e' ->
  (forall a, In a (h_inps (head_of c) ++ h_outs (head_of c)) -> known (fst a) /\ Forall known (snd a)) ->
  (forall a, In a (h_inps (head_of c) ++ h_outs (head_of c)) -> map e' (expand (fst a)) = map e (flat_map expand (snd a))) ->
  inside one_ holds c e' -> child one_ holds e c.
Proof.
  intros e e' c P K M I. exists e'. split; [exact P|]. split; [|exact I]. apply Forall_forall. intros a A.
  apply port_expand. destruct (K a A). auto.
Qed.

(* --- unfolding ------------------------------------------------------------------------------- *)

(* An instance with an internal wire of the same name as one outside. *)
Definition u_sub : head := hd_ "sub" [bind "f[1:0]" ["a[0]"; "b"]] [bind "g" ["o"]] ["w"; "v[3:2]"].
Definition u_kids : list (pex says) :=
  [ leaf "and" [bind "i[1:0]" ["f[1:0]"]] [bind "o" ["w"]] "i[0]" true;
    leaf "buf" [bind "i" ["w"]; bind "j[1:0]" ["v[3:2]"]] [bind "o" ["g"]] "i" true ].
Definition u_head : head := hd_ "top" [bind "a[1:0]" ["a[1:0]"]; bind "b" ["b"]] [bind "o" ["o"]] ["w"; "_$1_w"].
Definition u_rest : pex says := leaf "use" [bind "i" ["w"]] [bind "o" ["_$1_w"]] "i" false.
Definition u_top : pex says := Hier u_head [u_rest; Hier u_sub u_kids].

Definition u_result : pex says :=
  Hier (set_ints u_head (map nm ["_$2_w"; "w"; "_$1_w"; "v[3:2]"]))
    [ u_rest;
      leaf "and" [bind "i[1:0]" ["a[0]"; "b"]] [bind "o" ["_$2_w"]] "i[0]" true;
      leaf "buf" [bind "i" ["_$2_w"]; bind "j[1:0]" ["v[3:2]"]] [bind "o" ["o"]] "i" true ].


Lemma u_runs : unfold (fun x => x) u_top 2 = Ok u_result.
Proof. vm_compute. reflexivity. Qed.

(* Wires by computation: a word, or a word with one range. *)
Ltac a_wire :=
  match goal with
  | |- wire ?s =>
      let v := eval vm_compute in (split_name s) in
      match v with
      | [Txt ?n] => exists (nm n), None; split; [word_tac|split; [exact I|reflexivity]]
      | [Txt ?n; Idx ?rs; Txt _] =>
          let m := eval vm_compute in (cut (nm n)) in
          exists m, (Some (rs, [])); split; [word_tac|split; [split; [discriminate|constructor]|reflexivity]]
      end
  end.
Ltac wires_tac := match goal with |- Forall wire ?l => let v := eval vm_compute in l in change (Forall wire v) end;
  repeat (constructor; [a_wire|]); constructor.
Ltac scoped_tac := apply scoped_check; [wires_tac| |vm_compute; reflexivity];
  let c := fresh in let H := fresh in intros c H; cbn in H; repeat (destruct H as [<-|H]; [wires_tac|]); destruct H.

Lemma u_scoped : scoped u_head [u_rest; Hier u_sub u_kids] /\ scoped u_sub u_kids.
Proof. split; scoped_tac. Qed.

Lemma u_distinct : distinct (wires u_sub).
Proof.
  exists (flat_map expand (wires u_sub)). split; [apply known_stand|].
  - assert (W : Forall wire (wires u_sub)) by wires_tac. eapply Forall_impl; [|exact W]. intros. now left.
  - vm_compute. repeat constructor; cbn; intuition discriminate.
Qed.

Lemma u_fits : fits u_sub.
Proof.
  intros a A. assert (W : Forall wire (formals u_sub ++ flat_map snd (h_inps u_sub ++ h_outs u_sub))) by wires_tac.
  assert (K : Forall known (formals u_sub ++ flat_map snd (h_inps u_sub ++ h_outs u_sub))) by (eapply Forall_impl; [|exact W]; intros; now left).
  rewrite Forall_forall in K. split; [cbn in A; intuition (subst; discriminate)|].
  exists (expand (fst a)), (flat_map expand (snd a)). split; [|split].
  - apply known_stands, K, in_app_iff. left. now apply in_map.
  - apply known_stand, Forall_forall. intros x X. apply K, in_app_iff. right. apply in_flat_map. exists a. auto.
  - cbn in A. repeat (destruct A as [<-|A]; [vm_compute; reflexivity|]). destruct A.
Qed.

Lemma u_neat : Forall neat (h_ints u_head ++ h_ints u_sub) /\ Forall steady (h_ints u_sub).
Proof.
  split.
  - cbn [u_head u_sub hd_ h_ints map app].
    constructor; [|constructor; [|constructor; [|constructor; [|constructor]]]].
    + exists (nm "w"), None. split; [word_tac|]. split; [exact I|]. split; [reflexivity|exact I].
    + exists (nm "_$1_w"), None. split; [word_tac|]. split; [exact I|]. split; [reflexivity|exact I].
    + exists (nm "w"), None. split; [word_tac|]. split; [exact I|]. split; [reflexivity|exact I].
    + exists (nm "v"), (Some ([(3, 2)%Z], [])). split; [word_tac|]. split; [split; [discriminate|constructor]|].
      split; [reflexivity|]. left. cbn. lia.
  - repeat constructor.
Qed.

(* Two indices: the bits of the port are not connected as before. *)
Definition d_as : list string := ["m[1][3]"; "m[0][3]"; "m[1][2]"; "m[0][2]"].
Definition d_sub : head := hd_ "sub" [bind "f[3:0]" d_as] [] [].
Definition d_kid (l : list string) : pex says := leaf "leaf" [bind "i[3:0]" l] [] "i[0]" true.
Definition d_top : pex says := Hier (hd_ "top" [] [] d_as) [Hier d_sub [d_kid ["f[3:0]"]]].

Lemma d_runs : exists p, unfold (fun x => x) d_top 1 = Ok (Hier p [d_kid ["m[1:0][3:2]"]])
  /\ flat_map expand (map nm ["m[1:0][3:2]"]) <> flat_map expand (map nm d_as).
Proof. eexists. split; [vm_compute; reflexivity|vm_compute; discriminate]. Qed.

(* --- folding --------------------------------------------------------------------------------- *)

Definition link_check (h : head) (l : list (pex says)) (ids : list nat) : bool :=
  let inner := flat_map expand (flat_map acts (select true ids 1 l)) in
  let outer := flat_map expand (flat_map acts (select false ids 1 l) ++ formals h) in
  let drv := flat_map expand (flat_map (fun c => flat_map snd (h_outs (head_of c))) l ++ map fst (h_inps h)) in
  let rd := flat_map expand (flat_map (fun c => flat_map snd (h_inps (head_of c))) l ++ map fst (h_outs h)) in
  forallb (fun t => negb (mem t outer) || (mem t drv && mem t rd)) inner.

Lemma touches_expand : forall (c : pex says) s, touches c s -> In s (flat_map expand (acts c)).
Proof.
  intros c s [a [A [x [ss [X [S I]]]]]]. apply in_flat_map. exists x. rewrite (stands_expand _ _ S). split; [|exact I].
  apply in_flat_map. exists a. auto.
Qed.

Lemma link_side : forall (l : list (pex says)) (f : head -> list fa) (g : list fa) s,
  (forall c, In c l -> Forall wire (flat_map snd (f (head_of c)))) -> Forall wire (map fst g) ->
  mem s (flat_map expand (flat_map (fun c => flat_map snd (f (head_of c))) l ++ map fst g)) = true ->
  (exists c, In c l /\ at_port (f (head_of c)) s) \/ in_names (map fst g) s.
Proof.
  intros l f g s WL WG M. apply mem_in in M. rewrite flat_map_app, in_app_iff in M. destruct M as [M|M]; [left|right].
  - apply in_flat_map in M as [x [X M]]. apply in_flat_map in X as [c [C X]]. exists c. split; [exact C|].
    specialize (WL c C). rewrite Forall_forall in WL. assert (W := WL x X). apply in_flat_map in X as [a [A X]]. exists a. split; [exact A|].
    exists x, (expand x). split; [exact X|]. split; [now apply wire_stands|exact M].
  - apply in_names_expand; [|exact M]. eapply Forall_impl; [|exact WG]. intros; now left.
Qed.

Lemma linked_check : forall h (l : list (pex says)) ids, Forall wire (formals h) -> (forall c, In c l -> Forall wire (acts c)) ->
  link_check h l ids = true -> linked h l ids.
Proof.
  intros h l ids W A C i c s N IJ T NC O. unfold link_check in C. rewrite forallb_forall in C.
  assert (I1 : In c (select true ids 1 l)) by (apply select_in; exists i; split; [exact N|now apply is_id_in]).
  assert (S1 : In s (flat_map expand (flat_map acts (select true ids 1 l)))).
  { apply touches_expand in T. apply in_flat_map in T as [x [X T]]. apply in_flat_map. exists x. split; [|exact T]. apply in_flat_map. exists c. auto. }
  apply C in S1. rewrite orb_true_iff, andb_true_iff, negb_true_iff in S1.
  destruct S1 as [M|[M1 M2]].
  - exfalso. apply not_true_iff_false in M. apply M. apply mem_in. rewrite flat_map_app, in_app_iff.
    destruct O as [[j [d [N' [NI T']]]]|O].
    + left. apply touches_expand in T'. apply in_flat_map in T' as [x [X T']]. apply in_flat_map. exists x. split; [|exact T'].
      apply in_flat_map. exists d. split; [|exact X]. apply select_in. exists j. split; [exact N'|]. apply not_true_is_false. now rewrite is_id_in.
    + right. apply in_names_expand in O; [exact O|]. eapply Forall_impl; [|exact W]. intros; now left.
  - unfold formals in W. rewrite map_app in W. apply Forall_app in W as [W1 W2].
    assert (A1 : forall d, In d l -> Forall wire (flat_map snd (h_inps (head_of d))) /\ Forall wire (flat_map snd (h_outs (head_of d)))).
    { intros d D. specialize (A d D). unfold acts in A. rewrite flat_map_app in A. now apply Forall_app in A. }
    split; [apply (link_side l h_outs)|apply (link_side l h_inps)]; auto; intros d D; now apply A1.
Qed.

Ltac each_tac tac := let c := fresh in let H := fresh in intros c H; cbn in H; repeat (destruct H as [<-|H]; [tac|]); destruct H.
Ltac linked_tac := apply linked_check; [wires_tac|each_tac wires_tac|vm_compute; reflexivity].

(* A chain, of which the first two instances are folded. *)
Definition c_head : head := hd_ "top" [bind "a[1:0]" ["a[1:0]"]] [bind "o" ["o"]] ["w"; "v"].
Definition c_kids : list (pex says) :=
  [ leaf "A" [bind "i[1:0]" ["a[1:0]"]] [bind "o" ["w"]] "o" true;
    leaf "B" [bind "i" ["w"]; bind "j" ["a[0]"]] [bind "o" ["v"]] "i" true;
    leaf "C" [bind "i" ["v"]] [bind "o" ["o"]] "i" false ].
Definition c_result : pex says :=
  Hier (hd_ "top" [bind "a[1:0]" ["a[1:0]"]] [bind "o" ["o"]] ["v"])
    [ Hier (hd_ "AB" [bind "a[1:0]" ["a[1:0]"]; bind "a[0]" ["a[0]"]] [bind "v" ["v"]] ["w"]) (firstn 2 c_kids);
      nth 2 c_kids (leaf "" [] [] "" true) ].

Lemma c_runs : fold (fun x => x) (Hier c_head c_kids) [1; 2]%nat (nm "AB") = Ok c_result.
Proof. vm_compute. reflexivity. Qed.

Ltac a_simple :=
  match goal with
  | |- simple ?s =>
      let v := eval vm_compute in (split_name s) in
      match v with
      | [Txt ?n] => exists (nm n), None; split; [word_tac|split; [exact I|split; [reflexivity|exact I]]]
      | [Txt ?n; Idx [(?u, ?l)]; Txt _] =>
          let m := eval vm_compute in (cut (nm n)) in
          exists m, (Some ([(u, l)], [])); split; [word_tac|split; [split; [discriminate|constructor]|split; [reflexivity|exists u, l; split; [reflexivity|lia]]]]
      end
  end.
Ltac simples_tac := match goal with |- Forall simple ?l => let v := eval vm_compute in l in change (Forall simple v) end;
  repeat (constructor; [a_simple|]); constructor.

Lemma simply_acts : forall h (l : list (pex says)), Forall simple (formals h) -> (forall c, In c l -> Forall simple (acts c)) -> simply h l.
Proof.
  intros h l S A. split; [exact S|]. intros c a x C IA X. left. specialize (A c C). rewrite Forall_forall in A. apply A.
  apply in_flat_map. exists a. auto.
Qed.
Ltac simply_tac := apply simply_acts; [simples_tac|each_tac simples_tac].

Lemma c_ok : simply c_head c_kids /\ linked c_head c_kids [1; 2]%nat /\ scoped c_head c_kids.
Proof. split; [simply_tac|]. split; [linked_tac|scoped_tac]. Qed.

(* --- two instances that disagree -------------------------------------------------------------- *)

Lemma known_tac_one : forall l, Forall wire l -> Forall known l.
Proof. intros l W. eapply Forall_impl; [|exact W]. intros; now left. Qed.

Ltac env_tac := apply env_proper; let x := fresh in let c := fresh in let H := fresh in
  intros x c H; cbn in H; repeat (destruct H as [<-|H]; [discriminate|]); destruct H.
Ltac ports_tac := cbn [head_of leaf hd_ h_inps h_outs app]; 
  repeat (constructor; [apply port_expand; split; [left; cbn [fst bind]; a_wire|split; [apply known_tac_one; cbn [snd bind map]; wires_tac|vm_compute; reflexivity]]|]); constructor.

(* Fold the first of p and q, where no connection is found. *)
Definition apart (h : head) (p q : pex says) : pex says :=
  Hier (Head (h_name h) [] (h_leaf h) (h_inps h) (h_outs h) (h_ints h)) [Hier (hd_ "part" [] [] []) [p]; q].

Lemma split_possible : forall h p q e1 e2 e, proper one_ e1 -> proper one_ e2 -> h_inps h = [] -> h_outs h = [] ->
  child one_ holds e1 q -> child one_ holds e2 p -> possible one_ holds (apart h p q) (formals h) e.
Proof.
  intros h p q e1 e2 e P1 P2 I1 I2 Q P. exists e1. split; [exact P1|]. split.
  - intros s S. unfold formals in S. rewrite I1, I2 in S. destruct S as [n [ss [[] _]]].
  - unfold apart. rewrite inside_hier. constructor; [|constructor; [exact Q|constructor]].
    exists e2. split; [exact P2|]. split; [constructor|]. rewrite inside_hier. constructor; [exact P|constructor].
Qed.

(* Both read a wire that nothing drives. *)
Definition n_head : head := hd_ "top" [] [] ["w"].
Definition n_p : pex says := leaf "p" [bind "i" ["w"]] [] "i" true.
Definition n_q : pex says := leaf "q" [bind "i" ["w"]] [] "i" false.

Lemma port_at : forall (e e' : chars -> bool) l a, Forall (port e e') l -> In a l -> map e' (expand (fst a)) = map e (flat_map expand (snd a)).
Proof. intros e e' l a P A. rewrite Forall_forall in P. specialize (P a A). now apply port_expand in P. Qed.

Lemma n_bad : fold (fun x => x) (Hier n_head [n_p; n_q]) [1]%nat (nm "part") = Ok (apart n_head n_p n_q)
  /\ simply n_head [n_p; n_q] /\ scoped n_head [n_p; n_q]
  /\ exists e, possible one_ holds (apart n_head n_p n_q) (formals n_head) e
     /\ ~ possible one_ holds (Hier n_head [n_p; n_q]) (formals n_head) e.
Proof.
  split; [vm_compute; reflexivity|]. split; [simply_tac|]. split; [scoped_tac|].
  exists (env_of []). split.
  - apply (split_possible _ _ _ (env_of ["w"]) (env_of [])); try reflexivity; try env_tac.
    + exists (env_of ["i"]). split; [env_tac|]. split; [ports_tac|vm_compute; reflexivity].
    + exists (env_of []). split; [env_tac|]. split; [ports_tac|vm_compute; reflexivity].
  - intros [e1 [_ [_ H]]]. rewrite inside_hier in H. inversion H as [|? ? H1 H2]; subst. inversion H2 as [|? ? H3 _]; subst.
    destruct H1 as [e2 [_ [P2 S2]]], H3 as [e3 [_ [P3 S3]]].
    assert (Q2 := port_at _ _ _ (bind "i" ["w"]) P2 (or_introl eq_refl)). assert (Q3 := port_at _ _ _ (bind "i" ["w"]) P3 (or_introl eq_refl)).
    vm_compute in Q2, Q3, S2, S3. congruence.
Qed.

(* A rising range. *)
Definition r_head : head := hd_ "top" [] [] ["w[0:1]"].
Definition r_p : pex says := leaf "p" [] [bind "y[0:1]" ["w[0:1]"]] "y[0]" true.
Definition r_q : pex says := leaf "q" [bind "i[0:1]" ["w[0:1]"]] [] "i[0]" false.

Lemma r_bad : fold (fun x => x) (Hier r_head [r_p; r_q]) [1]%nat (nm "part") = Ok (apart r_head r_p r_q)
  /\ scoped r_head [r_p; r_q] /\ linked r_head [r_p; r_q] [1]%nat
  /\ exists e, possible one_ holds (apart r_head r_p r_q) (formals r_head) e
     /\ ~ possible one_ holds (Hier r_head [r_p; r_q]) (formals r_head) e.
Proof.
  split; [vm_compute; reflexivity|]. split; [scoped_tac|]. split; [linked_tac|].
  exists (env_of []). split.
  - apply (split_possible _ _ _ (env_of ["w[0]"]) (env_of [])); try reflexivity; try env_tac.
    + exists (env_of ["i[0]"]). split; [env_tac|]. split; [ports_tac|vm_compute; reflexivity].
    + exists (env_of []). split; [env_tac|]. split; [ports_tac|vm_compute; reflexivity].
  - intros [e1 [_ [_ H]]]. rewrite inside_hier in H. inversion H as [|? ? H1 H2]; subst. inversion H2 as [|? ? H3 _]; subst.
    destruct H1 as [e2 [_ [P2 S2]]], H3 as [e3 [_ [P3 S3]]].
    assert (Q2 := port_at _ _ _ (bind "y[0:1]" ["w[0:1]"]) P2 (or_introl eq_refl)). assert (Q3 := port_at _ _ _ (bind "i[0:1]" ["w[0:1]"]) P3 (or_introl eq_refl)).
    vm_compute in Q2, Q3, S2, S3. congruence.
Qed.

(* Several ranges. *)
Definition m_head : head := hd_ "top" [] [] ["w[7:0]"].
Definition m_p : pex says := leaf "p" [] [bind "y[3:0]" ["w[3:0]"]] "y[2]" true.
Definition m_q : pex says := leaf "q" [bind "i[4:0]" ["w[7:5,2:1]"]] [] "i[1]" false.

Lemma m_bad : fold (fun x => x) (Hier m_head [m_p; m_q]) [1]%nat (nm "part") = Ok (apart m_head m_p m_q)
  /\ scoped m_head [m_p; m_q] /\ linked m_head [m_p; m_q] [1]%nat
  /\ exists e, possible one_ holds (apart m_head m_p m_q) (formals m_head) e
     /\ ~ possible one_ holds (Hier m_head [m_p; m_q]) (formals m_head) e.
Proof.
  split; [vm_compute; reflexivity|]. split; [scoped_tac|]. split; [linked_tac|].
  exists (env_of []). split.
  - apply (split_possible _ _ _ (env_of ["w[2]"]) (env_of [])); try reflexivity; try env_tac.
    + exists (env_of ["i[1]"]). split; [env_tac|]. split; [ports_tac|vm_compute; reflexivity].
    + exists (env_of []). split; [env_tac|]. split; [ports_tac|vm_compute; reflexivity].
  - intros [e1 [_ [_ H]]]. rewrite inside_hier in H. inversion H as [|? ? H1 H2]; subst. inversion H2 as [|? ? H3 _]; subst.
    destruct H1 as [e2 [_ [P2 S2]]], H3 as [e3 [_ [P3 S3]]].
    assert (Q2 := port_at _ _ _ (bind "y[3:0]" ["w[3:0]"]) P2 (or_introl eq_refl)). assert (Q3 := port_at _ _ _ (bind "i[4:0]" ["w[7:5,2:1]"]) P3 (or_introl eq_refl)).
    vm_compute in Q2, Q3, S2, S3. congruence.
Qed.

(* --- internal wires of the outer instance ------------------------------------------------------- *)

(* w is driven by A and read by B and C; D has an internal wire w of its own. *)
Definition k_head : head := hd_ "top" [] [] ["w"].
Definition k_A : pex says := leaf "A" [] [bind "o" ["w"]] "o" true.
Definition k_B : pex says := leaf "B" [bind "i" ["w"]] [] "i" true.
Definition k_C : pex says := leaf "C" [bind "i" ["w"]] [] "i" true.
Definition k_E : pex says := leaf "E" [] [bind "o" ["w"]] "o" false.
Definition k_G : pex says := leaf "G" [bind "i" ["w"]] [] "i" false.
Definition k_D : pex says := Hier (hd_ "D" [] [] ["w"]) [k_E; k_G].
Definition k_part : pex says := Hier (hd_ "part" [] [bind "w" ["w"]] []) [k_A; k_B].
Definition k_folded : pex says := Hier (hd_ "top" [] [] []) [k_part; k_C; k_D].
Definition k_flat : pex says := Hier (hd_ "top" [] [] ["w"]) [k_part; k_C; k_E; k_G].

Lemma k_runs : fold (fun x => x) (Hier k_head [k_A; k_B; k_C; k_D]) [1; 2]%nat (nm "part") = Ok k_folded
  /\ unfold (fun x => x) k_folded 3 = Ok k_flat.
Proof. split; vm_compute; reflexivity. Qed.

Lemma k_ok : scoped k_head [k_A; k_B; k_C; k_D] /\ simply k_head [k_A; k_B; k_C; k_D] /\ linked k_head [k_A; k_B; k_C; k_D] [1; 2]%nat.
Proof. split; [scoped_tac|]. split; [simply_tac|linked_tac]. Qed.

Lemma k_lost : ~ scoped (hd_ "top" [] [] []) [k_part; k_C; k_D].
Proof.
  apply (not_scoped _ _ k_C (bind "i" ["w"]) (nm "w") (nm "w")); [right; now left|now left|now left|a_wire|vm_compute; now left|].
  vm_compute. tauto.
Qed.

Lemma k_bad : exists e, possible one_ holds (Hier k_head [k_A; k_B; k_C; k_D]) (formals k_head) e
  /\ ~ possible one_ holds k_flat (formals k_head) e.
Proof.
  exists (env_of []). split.
  - exists (env_of []). split; [env_tac|]. split; [reflexivity|]. rewrite inside_hier.
    repeat constructor.
    + exists (env_of []). split; [env_tac|]. split; [ports_tac|vm_compute; reflexivity].
    + exists (env_of []). split; [env_tac|]. split; [ports_tac|vm_compute; reflexivity].
    + exists (env_of []). split; [env_tac|]. split; [ports_tac|vm_compute; reflexivity].
    + exists (env_of ["w"]). split; [env_tac|]. split; [constructor|]. unfold k_D. rewrite inside_hier. repeat constructor.
      * exists (env_of ["o"]). split; [env_tac|]. split; [ports_tac|vm_compute; reflexivity].
      * exists (env_of ["i"]). split; [env_tac|]. split; [ports_tac|vm_compute; reflexivity].
  - intros [e1 [_ [_ H]]]. unfold k_flat in H. rewrite inside_hier in H. inversion H as [|? ? _ H2]; subst. inversion H2 as [|? ? H3 H4]; subst.
    inversion H4 as [|? ? H5 _]; subst.
    destruct H3 as [e2 [_ [P2 S2]]], H5 as [e3 [_ [P3 S3]]].
    assert (Q2 := port_at _ _ _ (bind "i" ["w"]) P2 (or_introl eq_refl)). assert (Q3 := port_at _ _ _ (bind "o" ["w"]) P3 (or_introl eq_refl)).
    vm_compute in Q2, Q3, S2, S3. congruence.
Qed.

(* An output that nothing reads. *)
Definition o_p : pex says := leaf "p" [] [bind "o" ["w"]] "o" true.
Lemma o_runs : fold (fun x => x) (Hier k_head [o_p]) [1]%nat (nm "part")
    = Ok (Hier k_head [Hier (hd_ "part" [] [] []) [o_p]])
  /\ scoped k_head [o_p] /\ ~ scoped (hd_ "part" [] [] []) [o_p].
Proof.
  split; [vm_compute; reflexivity|]. split; [scoped_tac|].
  apply (not_scoped _ _ o_p (bind "o" ["w"]) (nm "w") (nm "w")); [now left|now left|now left|a_wire|vm_compute; now left|].
  vm_compute. tauto.
Qed.
