(* Property theorems: choosing an alternative of an overloaded function by its type (C58). *)
From Coq Require Import String List Bool Arith Lia.
From Verif Require Import TyModel TyThms InfModel InfSpec InfEx OvModel ComSpec ChoThms ChoEx.
Import ListNotations.
Open Scope list_scope.

(* C58: Find_Overload_Choice answers. *)
Theorem C58_answers : forall ar fns f F type s,
  store ar (t_heap s) -> type < length (t_heap s) ->
  nth_error fns f = Some F -> fn_type F < length (t_heap s) ->
  (forall g, In g (fn_alts F) -> exists G, nth_error fns g = Some G /\ fn_type G < length (t_heap s)) ->
  exists n, forall fuel, n <= fuel -> exists o s', find_overload_choice fuel fns f (Some type) s = ROk o s'.
Proof. exact choice_answers. Qed.
Print Assumptions C58_answers.

(* C58: "no function of this type" is the answer exactly if the function cannot have the type, and
   then nothing has changed. *)
Theorem C58_none : forall ar fns f F type s fuel o s',
  store ar (t_heap s) -> type < length (t_heap s) ->
  nth_error fns f = Some F -> fn_type F < length (t_heap s) ->
  (forall g, In g (fn_alts F) -> exists G, nth_error fns g = Some G /\ fn_type G < length (t_heap s)) ->
  find_overload_choice fuel fns f (Some type) s = ROk o s' ->
  (o = None <-> ~ unifiable (t_heap s) [type; fn_type F]) /\ (o = None -> s' = s).
Proof.
  intros ar fns f F type s fuel o s' St Lt EF LF LA E.
  pose proof (choice_ok ar fns fuel f F type s o s' St Lt EF LF LA E) as C. destruct o as [g|].
  - destruct C as (U & _). split; [split; [discriminate|tauto]|discriminate].
  - destruct C as (U & ->). split; [split; auto|auto].
Qed.
Print Assumptions C58_none.

(* C58: otherwise the answer is the only alternative that can have the type, if there is exactly
   one, and the function itself, if it is not overloaded, or there is none or more than one. *)
Theorem C58_choice : forall ar fns f F type s fuel g s',
  store ar (t_heap s) -> type < length (t_heap s) ->
  nth_error fns f = Some F -> fn_type F < length (t_heap s) ->
  (forall g, In g (fn_alts F) -> exists G, nth_error fns g = Some G /\ fn_type G < length (t_heap s)) ->
  find_overload_choice fuel fns f (Some type) s = ROk (Some g) s' ->
  if fn_over F then
    (exists i, nth_error (fn_alts F) i = Some g /\ can fns (t_heap s) type f g
       /\ forall j g', nth_error (fn_alts F) j = Some g' -> can fns (t_heap s) type f g' -> j = i)
    \/ ((forall i g', nth_error (fn_alts F) i = Some g' -> can fns (t_heap s) type f g' ->
           exists j h, j <> i /\ nth_error (fn_alts F) j = Some h /\ can fns (t_heap s) type f h) /\ g = f)
  else g = f.
Proof.
  intros ar fns f F type s fuel g s' St Lt EF LF LA E.
  exact (proj2 (proj2 (proj2 (proj2 (choice_ok ar fns fuel f F type s (Some g) s' St Lt EF LF LA E))))).
Qed.
Print Assumptions C58_choice.

(* C58: and the types in the store are from then on those with which the function has the type, and
   no others. *)
Theorem C58_effect : forall ar fns f F type s fuel g s',
  store ar (t_heap s) -> type < length (t_heap s) ->
  nth_error fns f = Some F -> fn_type F < length (t_heap s) ->
  (forall g, In g (fn_alts F) -> exists G, nth_error fns g = Some G /\ fn_type G < length (t_heap s)) ->
  find_overload_choice fuel fns f (Some type) s = ROk (Some g) s' ->
  t_ctx s' = t_ctx s /\ store ar (t_heap s')
  /\ forall r, reading (t_heap s') r <-> reading (t_heap s) r /\ r type = r (fn_type F).
Proof.
  intros ar fns f F type s fuel g s' St Lt EF LF LA E.
  destruct (choice_ok ar fns fuel f F type s (Some g) s' St Lt EF LF LA E) as (_ & C & S' & R & _). auto.
Qed.
Print Assumptions C58_effect.

(* C58: the statement that the types of the functions are as before is false: the type a -> a of
   the identity is int -> int after the identity was listed with that type, and it can no longer
   have the type bool -> bool. *)
Theorem C58_restores_refuted : exists s',
  find_overload_choice 20 ch_fns 0 (Some 5) ch_s = ROk (Some 0) s'
  /\ unifiable (t_heap ch_s) [6; 4] /\ ~ unifiable (t_heap s') [6; 4]
  /\ find_overload_choice 20 ch_fns 0 (Some 6) s' = ROk None s'.
Proof.
  eexists. split; [vm_compute; reflexivity|]. split; [|split; [|vm_compute; reflexivity]].
  - exists (fun p => expand 8 [ NCon CInt []; NCon CBool []; NCon CBool []; NVar; NCon CArrow [2; 2];
      NCon CArrow [0; 0]; NCon CArrow [1; 1]; NCon CArrow [3; 3] ] p). split.
    + intros p n N. do 8 (destruct p as [|p]; [cbn in N; injection N as <-; exact I || reflexivity|]). destruct p; discriminate.
    + exists (arrow (tcon CBool []) (tcon CBool [])). intros p [<-|[<-|[]]]; reflexivity.
  - intros (r & R & t & E). pose proof (E 6 (or_introl eq_refl)) as E6.
    pose proof (E 4 (or_intror (or_introl eq_refl))) as E4. rewrite <- E4 in E6.
    rewrite (R 6 (NCon CArrow [1; 1]) eq_refl), (R 4 (NCon CArrow [2; 2]) eq_refl) in E6. cbn in E6. injection E6 as E1 _.
    rewrite (R 1 (NCon CBool []) eq_refl) in E1. rewrite (R 2 (NInd 0) eq_refl), (R 0 (NCon CInt []) eq_refl) in E1.
    discriminate.
Qed.
Print Assumptions C58_restores_refuted.

(* Non-vacuity. *)
Example C58_ex_hyps : store arity (t_heap ch_s) /\ forall f F, nth_error ch_fns f = Some F ->
  fn_type F < length (t_heap ch_s)
  /\ forall g, In g (fn_alts F) -> exists G, nth_error ch_fns g = Some G /\ fn_type G < length (t_heap ch_s).
Proof.
  split; [exact ch_store|]. intros f F E. split.
  - destruct f as [|[|[|[|f]]]]; [| | | |destruct f; discriminate]; injection E as <-; cbn; lia.
  - intros g I. assert (L : g = 2 \/ g = 3).
    { destruct f as [|[|[|[|f]]]]; [| | | |destruct f; discriminate]; injection E as <-; cbn in I; intuition. }
    destruct L as [-> | ->]; eexists; (split; [reflexivity|cbn; lia]).
Qed.
(* the alternative 2, at the type int -> int; the type of the overloaded function has changed *)
Example C58_ex_one : ch_run 1 (Some 5) =
  Some (Some 2, expand 8 (t_heap ch_s) 4, arrow (tcon CInt []) (tcon CInt [])).
Proof. vm_compute. reflexivity. Qed.
(* two alternatives at a -> a: the function itself *)
Example C58_ex_two : option_map (fun x => fst (fst x)) (ch_run 1 (Some 4)) = Some (Some 1).
Proof. vm_compute. reflexivity. Qed.
Example C58_ex_none : option_map (fun x => fst (fst x)) (ch_run 1 (Some 0)) = Some None.
Proof. vm_compute. reflexivity. Qed.
(* no type: the function itself, whatever its alternatives *)
Example C58_ex_untyped : option_map (fun x => fst (fst x)) (ch_run 1 None) = Some (Some 1).
Proof. vm_compute. reflexivity. Qed.
