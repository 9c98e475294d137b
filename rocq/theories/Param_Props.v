(* C69: param gives a parametric representation of a condition. *)
From Coq Require Import List Bool Arith Lia Sorting.Sorted.
From Verif Require Import ParamModel ParamSpec ParamThms.
Import ListNotations.

(* For each condition but F the answer lists the variables of the condition, in
   order, each with a function.  Whatever the values of the variables, the values
   of these functions meet the condition; and values that meet it are not
   changed, so that each way to meet the condition comes. *)
Theorem C69_param : forall n f, robdd f -> below n f -> f <> Leaf false ->
  exists res, param n f = Some res /\
    (StronglySorted lt (map fst res) /\ forall v, In v (map fst res) <-> on v f) /\
    (forall e, value f (subst res e) = true) /\
    (forall e, value f e = true -> forall v, subst res e v = e v).
Proof. exact param_spec. Qed.
Print Assumptions C69_param.

(* The values that come are those that meet the condition. *)
Theorem C69_image : forall n f res b, robdd f -> below n f -> param n f = Some res ->
  value f b = true <-> exists e, forall v, subst res e v = b v.
Proof.
  intros n f res b R B P.
  assert (N : f <> Leaf false) by (intros ->; discriminate).
  destruct (param_spec n f R B N) as (res' & P' & _ & S & I). rewrite P in P'. injection P' as <-.
  split.
  - intros V. exists b. exact (I b V).
  - intros (e & E). rewrite <- (S e). apply value_ext. intros v _. now rewrite E.
Qed.
Print Assumptions C69_image.

(* It fails for F. *)
Theorem C69_fails : forall n f, robdd f -> below n f -> (param n f = None <-> forall e, value f e = false).
Proof.
  intros n f R B. split.
  - intros P e. destruct (is_F f) eqn:F; [apply is_F_spec in F; now subst|].
    assert (N : f <> Leaf false) by (intros Q; apply is_F_spec in Q; congruence).
    destruct (param_spec n f R B N) as (res & Q & _). congruence.
  - intros V. destruct (is_F f) eqn:F; [apply is_F_spec in F; now subst|].
    assert (N : f <> Leaf false) by (intros Q; apply is_F_spec in Q; congruence).
    destruct (param_spec n f R B N) as (res & _ & _ & Q & _). specialize (Q (fun _ => false)).
    rewrite V in Q. discriminate.
Qed.
Print Assumptions C69_fails.

(* Non-vacuity: x0 => (x2 AND x4) | (x1 OR x2), over five variables *)
Definition ex : bdd :=
  Node 0 (Node 2 (Node 4 (Leaf true) (Leaf false)) (Leaf false))
         (Node 1 (Leaf true) (Node 2 (Leaf true) (Leaf false))).
Definition env_of (l : list bool) : env := fun v => nth v l false.
Example C69_ex :
  robdd ex /\ below 5 ex /\ ex <> Leaf false /\
  option_map (map (fun r => (fst r, map (fun l => snd r (env_of l))
      [[true; false; false; true; false]; [false; false; false; false; false];
       [false; true; false; true; true]]))) (param 5 ex) =
    Some [(0, [true; false; false]); (1, [false; false; true]); (2, [true; true; false]);
          (4, [true; false; true])].
Proof.
  split; [|split; [|split; [discriminate|reflexivity]]].
  - unfold ex. repeat (constructor; try discriminate);
      intros w [W|W]; repeat match goal with H : on _ _ |- _ => inversion H; subst; clear H end; lia.
  - intros v V. unfold ex in V.
    repeat match goal with H : on _ _ |- _ => inversion H; subst; clear H end; lia.
Qed.
Print Assumptions C69_ex.
