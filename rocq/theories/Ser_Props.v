(* Property theorems: saving and loading of graphs (C50). *)
From Coq Require Import ZArith List Ascii Bool Lia.
From Coq Require String.
From Verif Require Import SerModel SerSpec SerTop SerEx.
Import ListNotations.
Import String.StringSyntax.
Open Scope list_scope.
Open Scope Z_scope.

(* C50: Save_graph ends with an archive or with a refusal, and refuses exactly when some node of
   the graph is an object of a class that cannot be saved or a stream other than the standard
   ones. *)
Theorem C50_save : forall h refs dom root fuel cnt sig,
  closed h refs dom -> In root dom -> (length dom < fuel)%nat ->
  exists o, save_graph fuel cnt sig h refs root = Some o
    /\ (o <> None <-> forall x n, reach h refs root x -> h x = Some n -> savable n).
Proof. exact save_answers. Qed.
Print Assumptions C50_save.

Example C50_save_example :
  closed g_heap g_refs g_dom /\ In 100%positive g_dom
  /\ exists a, save_graph 11 10 sig2 g_heap g_refs 100%positive = Some (Some a)
     /\ a_strs a = str "3 a b
3 -42
" /\ a_bools a = [7; 0]
     /\ save_graph 11 10 sig2 (fun p => if Pos.eqb p 109 then Some (NObj 9) else g_heap p) g_refs 100%positive = Some None.
Proof.
  split; [exact g_closed|]. split; [left; reflexivity|]. eexists.
  split; [vm_compute; reflexivity|]. repeat split.
Qed.

(* C50: loading an archive into any session gives a graph with the same nodes, the same sharing
   and the same cycles, whose formulas and bexprs are those that Load_BDDs and Load_bexprs gave
   for the saved ones; the redex becomes a copy of its root, and nothing else in the session
   changes. *)
Theorem C50_round_trip : forall h refs dom root fuel cnt sig a (B E : Z -> Z -> Prop) bools bexprs streams redex s,
  closed h refs dom -> In root dom -> (length dom < fuel)%nat ->
  (forall x n, reach h refs root x -> h x = Some n -> faithful n) ->
  (forall x y r, reach h refs root x -> reach h refs root y ->
     h x = Some (NRef r) -> h y = Some (NRef r) -> x = y) ->
  ~ In nl sig -> (forall c r, sig = c :: r -> is_space c = false) -> sig <> [] ->
  Z.of_nat (length sig) < 129998 ->
  save_graph fuel cnt sig h refs root = Some (Some a) ->
  (forall f g f' g', B f f' -> B g g' -> f' = g' -> f = g) ->
  Forall2 B (a_bools a) bools -> Forall2 E (a_bexprs a) bexprs ->
  incl std_streams streams -> session_ok s -> (redex < s_next s)%positive ->
  exists p s', load_graph fuel sig a bools bexprs streams redex s = Some (Some (p, s'))
    /\ same_graph B E h refs root (s_heap s') (s_refs s') p
    /\ s_heap s' redex = s_heap s' p
    /\ (forall q, s_heap s q <> None -> q <> redex -> s_heap s' q = s_heap s q)
    /\ (forall r, s_refs s r <> None -> s_refs s' r = s_refs s r).
Proof. exact load_saved. Qed.
Print Assumptions C50_round_trip.

(* The hypotheses hold of a list with a shared string, a vector and a reference to itself; the
   formulas 7 and 0 become 9 and 0. *)
Example C50_round_trip_example :
  (forall x n, reach g_heap g_refs 100%positive x -> g_heap x = Some n -> faithful n)
  /\ (forall x y r, reach g_heap g_refs 100%positive x -> reach g_heap g_refs 100%positive y ->
        g_heap x = Some (NRef r) -> g_heap y = Some (NRef r) -> x = y)
  /\ session_ok empty_session
  /\ exists a s', save_graph 11 10 sig2 g_heap g_refs 100%positive = Some (Some a)
     /\ load_graph 11 sig2 a [9; 0] [] std_streams 1%positive empty_session = Some (Some (2%positive, s'))
     /\ map (s_heap s') [1; 2; 3; 4; 5; 6; 7; 8; 9; 10; 11]%positive
        = map Some [NCons 3 4; NCons 3 4; NText KString (str "a b"); NCons 3 5; NCons 6 7; NInt (-42);
                    NCons 8 9; NBv [9; 0; 9]%Z; NCons 10 11; NRef 0; NNil]%positive
     /\ s_refs s' 0 = Some 2%positive.
Proof.
  split; [exact g_faithful|]. split; [exact g_unique|]. split.
  { split; [intros a Ha; cbn; destruct a; [reflexivity|reflexivity|cbn in Ha; lia]|reflexivity]. }
  eexists. eexists. split; [vm_compute; reflexivity|]. split; [vm_compute; reflexivity|]. split; reflexivity.
Qed.

(* C50: reference variables are not shared when loaded: a list with the same reference variable
   twice comes back with two, so the graph is not the same. *)
Theorem C50_alias_refuted : exists h refs root fuel a p s',
  save_graph fuel 5 sig1 h refs root = Some (Some a)
  /\ load_graph fuel sig1 a [] [] std_streams 1%positive empty_session = Some (Some (p, s'))
  /\ forall B E, ~ same_graph B E h refs root (s_heap s') (s_refs s') p.
Proof.
  exists alias_heap, alias_refs, 10%positive, 9%nat. eexists. eexists. eexists.
  split; [vm_compute; reflexivity|]. split; [vm_compute; reflexivity|].
  intros B E (R & V & R0 & R1 & [V1 _] & N & _).
  destruct (N _ _ R0) as (n & m & Hn & Hm & Rl). cbn in Hn, Hm. injection Hn as <-. injection Hm as <-.
  inversion Rl as [| |a b a' b' Ra Rb| | | | | | | | | |]; subst.
  destruct (N _ _ Ra) as (n & m & Hn & Hm & Rl1). cbn in Hn, Hm. injection Hn as <-. injection Hm as <-.
  inversion Rl1 as [| | | | | | | | |r r' V0| | |]; subst.
  destruct (N _ _ Rb) as (n & m & Hn & Hm & Rl2). cbn in Hn, Hm. injection Hn as <-. injection Hm as <-.
  inversion Rl2 as [| |a b a' b' Rc Rd| | | | | | | | | |]; subst.
  destruct (N _ _ Rc) as (n & m & Hn & Hm & Rl3). cbn in Hn, Hm. injection Hn as <-. injection Hm as <-.
  inversion Rl3 as [| | | | | | | | |r r' V2| | |]; subst.
  pose proof (V1 _ _ _ V0 V2) as X. discriminate X.
Qed.
Print Assumptions C50_alias_refuted.

(* C50: the redex is a copy of the root, so when the root is on a cycle the graph at the redex is
   not the saved one (it has one node more). *)
Theorem C50_cycle_refuted : exists h refs root fuel a p s',
  save_graph fuel 5 sig1 h refs root = Some (Some a)
  /\ load_graph fuel sig1 a [] [] std_streams 1%positive empty_session = Some (Some (p, s'))
  /\ forall B E, ~ same_graph B E h refs root (s_heap s') (s_refs s') 1%positive.
Proof.
  exists loop_heap, no_refs, 10%positive, 9%nat. eexists. eexists. eexists.
  split; [vm_compute; reflexivity|]. split; [vm_compute; reflexivity|].
  intros B E (R & V & R0 & [R1 _] & _ & N & _).
  destruct (N _ _ R0) as (n & m & Hn & Hm & Rl). cbn in Hn, Hm. injection Hn as <-. injection Hm as <-.
  inversion Rl as [a b a' b' Ra Rb| | | | | | | | | | | |]; subst.
  pose proof (R1 _ _ _ R0 Rb) as X. discriminate X.
Qed.
Print Assumptions C50_cycle_refuted.

(* C50: a variable is saved without complaint, but there is no case for it when loading (DIE). *)
Theorem C50_var_refuted : exists h root fuel a,
  save_graph fuel 1 sig1 h no_refs root = Some (Some a)
  /\ forall fuel', load_graph fuel' sig1 a [] [] std_streams 1%positive empty_session = None.
Proof.
  exists var_heap, 10%positive, 5%nat, var_archive. split; [vm_compute; reflexivity|exact var_load].
Qed.
Print Assumptions C50_var_refuted.

(* C50: only a prefix of the type signature is compared, so a value of a type with more
   constructors is loaded as one of the type with fewer. *)
Theorem C50_type_refuted : exists h root fuel a p s', sig1 <> sig2
  /\ save_graph fuel 1 sig2 h no_refs root = Some (Some a)
  /\ load_graph fuel sig1 a [] [] std_streams 1%positive empty_session = Some (Some (p, s')).
Proof.
  exists (heap_of [(10%positive, NText KString (str "B"))]), 10%positive, 5%nat. eexists. eexists. eexists.
  split; [discriminate|]. split; [vm_compute; reflexivity|]. vm_compute. reflexivity.
Qed.
Print Assumptions C50_type_refuted.

(* C50: bytes written by write_uchar are not read back when the next one is white space. *)
Theorem C50_uchar_refuted : exists c d e,
  match get_uchar (put_uchar c ++ put_uchar d ++ put_uchar e) with
  | Some (c', r) => match get_uchar r with Some (d', _) => c' = c /\ d' = e /\ d' <> d | None => False end
  | None => False
  end.
Proof. exists "a"%char, " "%char, "b"%char. vm_compute. repeat split. discriminate. Qed.
Print Assumptions C50_uchar_refuted.
