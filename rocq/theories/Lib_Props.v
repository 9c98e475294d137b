(* Property theorems: hash tables (C32), string interning (C38), the record
   manager (C39). *)
From Coq Require Import List Arith NArith Bool Lia Permutation.
From Verif Require Import HashModel HashThms StrModel StrThms RecModel RecThms.
Import ListNotations.

(* C32: with any hash function and equality that fit together, any history that
   deletes only bound keys and inserts only unbound ones gives the answers of a
   finite map; scan_hash visits exactly the bindings. *)
Theorem C32_map : forall (K : Type) (hash_fn : K -> N -> N) (hash_eq : K -> K -> bool) size l,
  good_hash hash_fn hash_eq -> (size <= 2147483629)%N ->
  proper hash_eq l [] -> fresh_inserts hash_eq l [] ->
  exists t t', create_hash size = Some t /\
    hrun hash_fn hash_eq l t = Some (fst (sp_run hash_eq l []), t') /\
    Permutation (scan_hash t') (snd (sp_run hash_eq l [])) /\
    h_elems t' = N.of_nat (length (snd (sp_run hash_eq l []))).
Proof.
  intros K hf he size l G L P F. destruct (create_inv hf size L) as (t & E & I).
  destruct (hrun_refines hf he G l t [] I) as (t' & A); [intros k; cbn; lia|assumption|assumption|].
  exists t, t'. auto.
Qed.
Print Assumptions C32_map.

(* With the size frozen, any number of bindings of the same key: the latest one
   counts, and a deletion uncovers the one before. *)
Theorem C32_frozen : forall (K : Type) (hash_fn : K -> N -> N) (hash_eq : K -> K -> bool) size l,
  good_hash hash_fn hash_eq -> (size <= 2147483629)%N ->
  proper hash_eq l [] -> frozen l ->
  exists t t', create_hash size = Some t /\
    hrun hash_fn hash_eq l (set_auto false t) = Some (fst (sp_run hash_eq l []), t').
Proof.
  intros K hf he size l G L P F. destruct (create_chained hf size L) as (t & E & I).
  destruct (hrun_frozen hf he G l _ [] I P F) as (t' & A). exists t, t'. auto.
Qed.
Print Assumptions C32_frozen.

(* Without freezing, "the latest binding counts" is false: growing the table
   turns the chains around. *)
Definition shadow : list (hop N) :=
  [HIns 1 100; HIns 1 200]%N ++
  map (fun k => HIns (N.of_nat k) 7%N) (seq 2 26) ++ [HFind 1%N].
Theorem C32_refuted : exists l t r t',
  good_hash (fun k n => (k mod n)%N) N.eqb /\ proper N.eqb l [] /\
  create_hash 1 = Some t /\ hrun (fun k n => (k mod n)%N) N.eqb l t = Some (r, t') /\
  last (fst (sp_run N.eqb l [])) 0%N = 200%N /\ last r 0%N = 100%N.
Proof.
  exists shadow. eexists. eexists. eexists. split.
  { split.
    - intros k n L. apply N.mod_lt. lia.
    - apply N.eqb_refl.
    - intros. now rewrite N.eqb_sym.
    - intros k1 k2 k3. rewrite !N.eqb_eq. congruence.
    - intros k1 k2 n. rewrite N.eqb_eq. congruence. }
  split; [vm_compute; repeat split; discriminate|].
  split; [reflexivity|]. split; [vm_compute; reflexivity|]. split; vm_compute; reflexivity.
Qed.
Print Assumptions C32_refuted.

(* Deleting a key that is not bound follows a null pointer. *)
Theorem C32_delete_refuted : exists t,
  create_hash 1 = Some t /\ delete_hash (fun k n => (k mod n)%N) N.eqb t 5%N = None.
Proof. eexists. split; reflexivity. Qed.
Print Assumptions C32_delete_refuted.

(* Non-vacuity: forty insertions (the table grows), deletions, look-ups. *)
Definition grow : list (hop N) :=
  map (fun k => HIns (N.of_nat k) (N.of_nat k + 1)%N) (seq 0 40) ++
  [HDel 3; HFind 3; HFind 17; HIns 3 9; HFind 3; HSize; HCheckIns 3 8; HCheckIns 50 8]%N.
Example C32_ex : proper N.eqb grow [] /\ fresh_inserts N.eqb grow [] /\
  exists t r t', create_hash 1 = Some t /\
    hrun (fun k n => (k mod n)%N) N.eqb grow t = Some (r, t') /\
    h_size t' = 59%N /\ skipn 40 r = [0; 0; 18; 0; 9; 40; 0; 1]%N.
Proof.
  split; [vm_compute; repeat split; discriminate|].
  split; [cbn; repeat split; vm_compute; try discriminate; reflexivity|].
  do 3 eexists. split; [reflexivity|]. split; [vm_compute; reflexivity|]. split; reflexivity.
Qed.

(* C38: interning any sequence of strings that fit in a block: the pointer is
   not null, at the end every pointer still reads as its string, and pointers
   are equal exactly when the strings are. *)
Theorem C38_intern : forall B str_hash garbage l,
  (forall s n, (0 < n -> str_hash s n < n)%N) ->
  Forall (fun s => cstring s /\ length s <= B) l -> (N.of_nat (length l) <= 2147483629)%N ->
  exists x0 ps m t, init_symb B garbage = Some x0 /\
    wrun B str_hash garbage l x0 = Some (ps, (m, t)) /\
    length ps = length l /\
    (forall i s p, nth_error l i = Some s -> nth_error ps i = Some p ->
       (0 < p)%N /\ read_str (s_mem m) p = s) /\
    (forall i j s1 s2 p1 p2,
       nth_error l i = Some s1 -> nth_error ps i = Some p1 ->
       nth_error l j = Some s2 -> nth_error ps j = Some p2 ->
       (p1 = p2 <-> s1 = s2)).
Proof. intros B h g l H. exact (intern_lemma B h H g l). Qed.
Print Assumptions C38_intern.

(* Longer strings are cut off, and then the claim fails, with the block size
   and the hash function of the program: the long string itself gets a new
   pointer every time, and afterwards the string that is its first part gets a
   pointer different from the one that it had before. *)
Definition big : nat := N.to_nat 130000.
Definition str_T : list byte := repeat 65%N big.
Definition str_L : list byte := str_T ++ [66%N].
Lemma str_T_len : length str_T = big.
Proof. apply repeat_length. Qed.
Opaque big str_T str_L init_symb wrun.
Definition long_ptrs : option (list N) :=
  match init_symb big (fun _ => 0%N) with
  | Some x0 => option_map fst (wrun big str_hash_c (fun _ => 0%N) [str_T; str_L; str_L; str_T] x0)
  | None => None
  end.
Lemma long_ptrs_eq : long_ptrs = Some [130002; 260003; 390004; 390004]%N.
Proof. vm_compute. reflexivity. Qed.
Lemma opt_run {X Y A} (i : option X) (w : X -> option (A * Y)) (r : A) :
  match i with Some x0 => option_map fst (w x0) | None => None end = Some r ->
  exists x0 x, i = Some x0 /\ w x0 = Some (r, x).
Proof.
  destruct i as [x0|]; [|discriminate]. destruct (w x0) as [[a y]|] eqn:E; [|discriminate].
  intros [= <-]. exists x0, y. auto.
Qed.
Theorem C38_refuted : exists x0 p1 p2 p3 p4 x,
  init_symb big (fun _ => 0%N) = Some x0 /\
  wrun big str_hash_c (fun _ => 0%N) [str_T; str_L; str_L; str_T] x0 = Some ([p1; p2; p3; p4], x) /\
  length str_T <= big /\ p1 <> p4 /\ p2 <> p3.
Proof.
  pose proof long_ptrs_eq as E. unfold long_ptrs in E.
  apply (opt_run (init_symb big (fun _ => 0%N))
           (wrun big str_hash_c (fun _ => 0%N) [str_T; str_L; str_L; str_T])) in E.
  destruct E as (x0 & x & E0 & W).
  exists x0, 130002%N, 260003%N, 390004%N, 390004%N, x. split; [exact E0|]. split; [exact W|].
  split; [rewrite str_T_len; apply le_n|]. split; discriminate.
Qed.
Print Assumptions C38_refuted.

Transparent big str_T str_L init_symb wrun.
Example C38_ex : exists x0 x,
  init_symb 10 (fun _ => 77%N) = Some x0 /\
  wrun 10 str_hash_c (fun _ => 77%N)
    [[97; 98]; [99]; [97; 98]; [100; 101; 102; 103; 104]; [99]]%N x0
    = Some ([1; 5; 1; 12; 5]%N, x) /\
  (forall s n, (0 < n -> str_hash_c s n < n)%N).
Proof.
  do 2 eexists. split; [vm_compute; reflexivity|]. split; [vm_compute; reflexivity|].
  intros s n L. apply N.mod_lt. lia.
Qed.

(* C39: after any proper history, a new record is none of those that are out,
   and lies in a block of the manager; the records that are out are pairwise
   different, and freeing any of them does not run into an assertion. *)
Theorem C39_new_rec : forall capacity b l m live,
  0 < capacity -> rrun capacity (new_mgr b, []) l (m, live) ->
  NoDup live /\ r_live m = length live /\
  (forall r, In r live -> In (fst r) (r_blocks m) /\ snd r < capacity) /\
  (forall blk, ~ In blk (r_blocks m) ->
     exists p m', new_rec capacity m blk = Some (p, m') /\ ~ In p live /\
       In (fst p) (r_blocks m') /\ snd p < capacity) /\
  (forall r, In r live -> free_rec capacity m r <> None).
Proof.
  intros capacity b l m live C R.
  pose proof (rrun_inv capacity C _ _ _ R (new_mgr_inv capacity C b)) as I.
  pose proof I as (fl & F & N & P & NB & BN & LA & L2 & LL).
  split; [apply nodup_app in N; tauto|]. split; [assumption|]. split; [|split].
  - intros r J. destruct (P r) as (A & B & _); [apply in_or_app; auto|auto].
  - intros blk FB. destruct (new_inv capacity C m live blk I FB) as (p & m' & E & Np & _ & A & B & _).
    exists p, m'. auto.
  - intros r J E. destruct (free_inv capacity C m live r I J) as (m' & E' & _). congruence.
Qed.
Print Assumptions C39_new_rec.

(* On a manager that is still pure, rec_element (and so FOR_REC) enumerates
   exactly the records that are out. *)
Theorem C39_elements : forall capacity b l m live,
  0 < capacity -> rrun capacity (new_mgr b, []) l (m, live) -> r_pure m = true ->
  forall p, (exists i, rec_element capacity m i = Some p) <-> In p live.
Proof.
  intros capacity b l m live C R Pu p.
  pose proof (rrun_inv capacity C _ _ _ R (new_mgr_inv capacity C b)) as I.
  assert (J : pinv capacity (m, live)).
  { apply (rrun_pinv capacity C _ _ _ R (new_mgr_inv capacity C b)).
    intros _. split; [reflexivity|]. intros q (A & B & D). cbn in *.
    destruct A as [A|[]]. rewrite A in D. specialize (D eq_refl). lia. }
  destruct (J Pu) as [Fr Q]. pose proof I as (fl & F & N & P & NB & BN & LA & L2 & LL).
  rewrite rec_element_placed by assumption. split; [apply Q|].
  intros K. apply P, in_or_app. auto.
Qed.
Print Assumptions C39_elements.

Example C39_ex : exists m live,
  rrun 2 (new_mgr 0, [])
    [RNew 9; RNew 9; RNew 1; RNew 9; RFree (0, 1); RFree (1, 1); RFree (1, 0); RNew 1]
    (m, live) /\ live = [(0, 1); (0, 0)] /\ r_blocks m = [0].
Proof.
  do 2 eexists. split.
  - repeat (eapply run_cons; [cbn; intuition congruence|econstructor; vm_compute; reflexivity|cbn]).
    apply run_nil.
  - split; reflexivity.
Qed.
