(* Choices as paths: the alternatives in the order in which the search takes them. *)
From Coq Require Import String List Bool Arith Lia.
From Verif Require Import TyModel InfModel InfSpec OvModel OvSpec.
Import ListNotations.
Open Scope list_scope.

Section Path.
Variable fns : list fn.
Variable sigma : nat -> tree.
Notation call := (call fns sigma).
Notation resolves_all := (resolves_all fns sigma).
Notation resolves := (resolves fns sigma).

Inductive psol : list (nat * tree) -> list nat -> Prop :=
| ps_nil : psol [] []
| ps_cons f t F i g uses P l : nth_error fns f = Some F -> nth_error (fn_alts F) i = Some g ->
    call g t uses -> psol (rev uses ++ P) l -> psol ((f, t) :: P) (i :: l).

Lemma all_app us vs cs : resolves_all (us ++ vs) cs ->
  exists k cs', cs = k ++ cs' /\ resolves_all us k /\ resolves_all vs cs'.
Proof.
  revert cs. induction us as [|[f t] us IH]; intros cs H.
  - exists [], cs. split; [reflexivity|]. split; [constructor|assumption].
  - inversion H as [|? ? ? c cs0 H1 H2]; subst. destruct (IH _ H2) as (k & cs' & -> & A & B).
    exists (c :: k), cs'. split; [reflexivity|]. split; [now constructor|assumption].
Qed.
Lemma app_all us vs k cs : resolves_all us k -> resolves_all vs cs -> resolves_all (us ++ vs) (k ++ cs).
Proof.
  intros H. revert us H. induction k as [|c k IH]; intros us H V; inversion H; subst; cbn; [assumption|].
  constructor; auto.
Qed.
Lemma rev_all us k : resolves_all us k -> resolves_all (rev us) (rev k).
Proof.
  revert us. induction k as [|c k IH]; intros us H; inversion H; subst; cbn; [constructor|].
  apply app_all; [auto|]. constructor; [assumption|constructor].
Qed.
Lemma all_length us k : resolves_all us k -> length us = length k.
Proof. revert us. induction k; intros us H; inversion H; subst; cbn; auto. Qed.

Lemma flats_app a b : flats (a ++ b) = flats a ++ flats b.
Proof. unfold flats. now rewrite map_app, concat_app. Qed.
Lemma flat_pick i k : flat (Pick i k) = i :: flats (rev k).
Proof. unfold flats. cbn. now rewrite map_rev. Qed.
Lemma flats_cons i k cs : flats (Pick i k :: cs) = i :: flats (rev k ++ cs).
Proof. unfold flats at 1. cbn [map concat]. rewrite flat_pick, flats_app. reflexivity. Qed.

Lemma psol_all P l : psol P l -> exists cs, resolves_all P cs /\ flats cs = l.
Proof.
  induction 1 as [|f t F i g uses P l Hf Hi C H IH].
  - exists []. split; [constructor|reflexivity].
  - destruct IH as (cs & R & <-). apply all_app in R as (k & cs' & -> & A & B).
    exists (Pick i (rev k) :: cs'). split.
    + constructor; [|assumption]. econstructor; eauto. apply rev_all in A. now rewrite rev_involutive in A.
    + now rewrite flats_cons, rev_involutive.
Qed.
Lemma all_psol n : forall P cs, length (flats cs) <= n -> resolves_all P cs -> psol P (flats cs).
Proof.
  induction n as [|n IH]; intros P cs L R; inversion R as [|f t us c cs' Rc Rs]; subst; try constructor.
  - destruct c. rewrite flats_cons in L. cbn in L. lia.
  - inversion Rc as [? ? i g uses kids F Hf Hi C K]; subst. rewrite flats_cons in *. cbn in L.
    econstructor; eauto. apply IH; [lia|]. apply app_all; [now apply rev_all|assumption].
Qed.

Lemma combine_names (l l' : list tree) (G : list nat) (g : nat) (t t' : tree) : length l = length G -> length l' = length G ->
  map fst (filter (fun u => overloaded fns (fst u)) (combine (g :: G) (t :: l))) =
  map fst (filter (fun u => overloaded fns (fst u)) (combine (g :: G) (t' :: l'))).
Proof.
  intros E E'. cbn.
  assert (H : forall (G : list nat) (l l' : list tree), length l = length G -> length l' = length G ->
    map fst (filter (fun u => overloaded fns (fst u)) (combine G l)) =
    map fst (filter (fun u => overloaded fns (fst u)) (combine G l'))).
  { clear. induction G as [|d G IH]; intros [|a l] [|b l'] A B; cbn in *; try discriminate; [reflexivity|].
    injection A as A. injection B as B.
    destruct (overloaded fns d); cbn; [f_equal|]; auto. }
  destruct (overloaded fns g); cbn; [f_equal|]; auto.
Qed.
Lemma Forall2_len {A B} (Q : A -> B -> Prop) l k : Forall2 Q l k -> length k = length l.
Proof. induction 1; cbn; auto. Qed.
Lemma call_names g t t' u u' : call g t u -> call g t' u' -> map fst u = map fst u'.
Proof.
  intros (G & l & E & _ & F & ->) (G' & l' & E' & _ & F' & ->).
  rewrite E in E'. injection E' as <-. apply combine_names; eapply Forall2_len; eauto.
Qed.

(* A path tells the choices. *)
Lemma flats_inj n : forall P P' cs cs', length (flats cs) <= n -> map fst P = map fst P' ->
  resolves_all P cs -> resolves_all P' cs' -> flats cs = flats cs' -> cs = cs'.
Proof.
  induction n as [|n IH]; intros P P' cs cs' L N R R' E;
    inversion R as [|f t us c cs1 Rc Rs]; subst; inversion R' as [|f' t' us' c' cs1' Rc' Rs']; subst;
    try discriminate; try reflexivity.
  - destruct c. rewrite flats_cons in L. cbn in L. lia.
  - injection N as <- N.
    inversion Rc as [? ? i g uses kids F Hf Hi C K]; subst.
    inversion Rc' as [? ? i' g' uses' kids' F' Hf' Hi' C' K']; subst.
    rewrite flats_cons in *. rewrite flats_cons in E. cbn in L. injection E as <- E.
    rewrite Hf in Hf'. injection Hf' as <-. rewrite Hi in Hi'. injection Hi' as <-.
    assert (Nu := call_names _ _ _ _ _ C C').
    assert (X : rev kids ++ cs1 = rev kids' ++ cs1').
    { apply (IH (rev uses ++ us) (rev uses' ++ us')); [lia| | | |assumption].
      - now rewrite !map_app, !map_rev, Nu, N.
      - apply app_all; [now apply rev_all|assumption].
      - apply app_all; [now apply rev_all|assumption]. }
    assert (Lk : length kids = length kids').
    { rewrite <- (all_length _ _ K), <- (all_length _ _ K'), <- (map_length fst uses), Nu. apply map_length. }
    assert (Y : rev kids = rev kids' /\ cs1 = cs1').
    { assert (Lr : length (rev kids) = length (rev kids')) by now rewrite !rev_length.
      revert Lr X. generalize (rev kids), (rev kids'). clear. intros a.
      induction a as [|x a IH]; intros [|y b] Lr X; cbn in *; try discriminate; [auto|].
      injection X as -> X. injection Lr as Lr. destruct (IH _ Lr X) as [-> ->]. auto. }
    destruct Y as [Y ->]. f_equal. f_equal.
    rewrite <- (rev_involutive kids), Y. apply rev_involutive.
Qed.

(* ---- counting ---- *)
Definition counts {A} (P : A -> Prop) (a : answer) (is : list nat -> A -> Prop) : Prop :=
  match a with
  | ANone _ => forall x, ~ P x
  | AOne l => exists x, P x /\ is l x /\ forall y, P y -> y = x
  | AMany n => 2 <= n /\ exists x y, P x /\ P y /\ x <> y
  end.
Definition paths (h : heap) (todo : list occ) (l : list nat) : Prop :=
  exists r, reading h r /\ psol (map (fun o => (fst o, r (snd o))) todo) l.

Lemma paths_solution h todo a : counts (paths h todo) a eq ->
  counts (solution fns sigma h todo) a (fun l cs => l = flats cs).
Proof.
  assert (To : forall cs, solution fns sigma h todo cs -> paths h todo (flats cs)).
  { intros cs (r & R & S). exists r. split; [assumption|]. eapply all_psol; eauto. }
  assert (Of : forall l, paths h todo l -> exists cs, solution fns sigma h todo cs /\ flats cs = l).
  { intros l (r & R & S). apply psol_all in S as (cs & S & E). exists cs. split; [exists r; auto|assumption]. }
  assert (Inj : forall cs cs', solution fns sigma h todo cs -> solution fns sigma h todo cs' ->
    flats cs = flats cs' -> cs = cs').
  { intros cs cs' (r & _ & S) (r' & _ & S') E. eapply flats_inj; [| |exact S|exact S'|exact E]; eauto.
    rewrite !map_map. reflexivity. }
  destruct a as [f|l|n]; cbn.
  - intros H cs S. exact (H _ (To _ S)).
  - intros (x & Px & <- & U). destruct (Of _ Px) as (cs & S & E). exists cs. split; [assumption|].
    split; [now symmetry|]. intros cs' S'. apply Inj; [assumption|assumption|].
    rewrite E. apply U. now apply To.
  - intros (L & x & y & Px & Py & N). split; [assumption|].
    destruct (Of _ Px) as (cs & S & E). destruct (Of _ Py) as (cs' & S' & E').
    exists cs, cs'. split; [assumption|]. split; [assumption|]. congruence.
Qed.
End Path.
