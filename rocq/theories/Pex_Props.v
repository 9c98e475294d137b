(* Properties C59 (unfold_pexlif) and C60 (fold_pexlif). *)
From Coq Require Import ZArith List Bool Ascii String Permutation.
From Verif Require Import VnameModel PexModel PexSpec PexName PexThms PexFold PexEx.
Import ListNotations.
Open Scope string_scope.
Open Scope list_scope.

(* --- C59 --------------------------------------------------------------------------------------- *)

(* Unfolding the child number k + 1 of a design: its children follow the other children, with
   other actuals only; the design keeps its name and formals, all wires that the new children
   use are declared, all internal wires are kept, and the values of its formals and internal
   wires that can occur are the same. *)
Theorem C59_unfold : forall {F} srt h (l : list (pex F)) k hu lu, (forall x, Permutation (srt x) x) ->
  scoped h l -> nth_error l k = Some (Hier hu lu) -> scoped hu lu -> distinct (wires hu) -> fits hu ->
  Forall neat (h_ints h ++ h_ints hu) -> Forall steady (h_ints hu) ->
  exists ints l' gs, unfold srt (Hier h l) (S k) = Ok (Hier (set_ints h ints) l')
    /\ (l' = firstn k l ++ skipn (S k) l ++ gs /\ Forall2 (lifted (h_attrs hu)) lu gs)
    /\ scoped (set_ints h ints) l'
    /\ (forall s, in_names (h_ints h) s -> in_names ints s)
    /\ forall V (K : ascii -> V) sat e,
         possible K sat (Hier h l) (wires h) e <-> possible K sat (Hier (set_ints h ints) l') (wires h) e.
Proof. exact @unfold_ok. Qed.
Print Assumptions C59_unfold.

(* The wire w of the child is renamed to _$2_w, as w and _$1_w are taken. *)
Example C59_ex : unfold (fun x => x) u_top 2 = Ok u_result
  /\ (scoped u_head [u_rest; Hier u_sub u_kids] /\ scoped u_sub u_kids) /\ distinct (wires u_sub) /\ fits u_sub
  /\ Forall neat (h_ints u_head ++ h_ints u_sub) /\ Forall steady (h_ints u_sub).
Proof. exact (conj u_runs (conj u_scoped (conj u_distinct (conj u_fits u_neat)))). Qed.

(* A child that is a leaf is left as it is. *)
Theorem C59_leaf : forall {F} srt h (l : list (pex F)) k hu f, Forall wire (wires h) ->
  nth_error l k = Some (Leaf hu f) -> unfold srt (Hier h l) (S k) = Ok (Hier h l).
Proof. exact @unfold_leaf. Qed.
Print Assumptions C59_leaf.

(* There is no child with another number. *)
Theorem C59_range : forall {F} srt h (l : list (pex F)) id, Forall wire (wires h) ->
  id = 0%nat \/ (List.length l < id)%nat -> unfold srt (Hier h l) id = Fail.
Proof. exact @unfold_range. Qed.
Print Assumptions C59_range.

(* The actuals of the child have two indices: its four bits f[3:0] are
   m[1][3], m[0][3], m[1][2] and m[0][2].  After the unfolding the leaf has them in another
   order. *)
Theorem C59_order_refuted : exists p, unfold (fun x => x) d_top 1 = Ok (Hier p [d_kid ["m[1:0][3:2]"]])
  /\ flat_map expand (map nm ["m[1:0][3:2]"]) <> flat_map expand (map nm d_as).
Proof. exact d_runs. Qed.
Print Assumptions C59_order_refuted.

(* --- C60 --------------------------------------------------------------------------------------- *)

(* Folding the children with numbers in ids into one: the same values of the formals can
   occur.  All names have one falling range at most, and wires between these children and
   the rest of the design are both driven and read. *)
Theorem C60_fold_partial : forall {F} scan h (l : list (pex F)) ids name,
  (forall x a, In a (scan x) <-> In a x) -> simply h l -> ~ In 0%nat ids -> linked h l ids ->
  exists h' hp, let p := Hier h' (Hier hp (chosen true ids l) :: chosen false ids l) in
    fold scan (Hier h l) ids name = Ok p
    /\ (h_name h' = h_name h /\ h_inps h' = h_inps h /\ h_outs h' = h_outs h /\ h_name hp = name)
    /\ forall V (K : ascii -> V) sat e,
         possible K sat (Hier h l) (formals h) e <-> possible K sat p (formals h) e.
Proof. exact @fold_ok. Qed.
Print Assumptions C60_fold_partial.

Example C60_ex : fold (fun x => x) (Hier c_head c_kids) [1; 2]%nat (nm "AB") = Ok c_result
  /\ simply c_head c_kids /\ linked c_head c_kids [1; 2]%nat /\ scoped c_head c_kids.
Proof. exact (conj c_runs c_ok). Qed.

(* Two instances that read a wire without a driver are separated. *)
Theorem C60_undriven_refuted : exists h l ids name p,
  fold (fun x => x) (Hier h l) ids name = Ok p /\ simply h l /\ scoped h l
  /\ exists e, possible one_ holds p (formals h) e /\ ~ possible one_ holds (Hier h l) (formals h) e.
Proof. exists n_head, [n_p; n_q], [1%nat], (nm "part"), (apart n_head n_p n_q). exact n_bad. Qed.
Print Assumptions C60_undriven_refuted.

(* A connection by a rising range is cut. *)
Theorem C60_rising_refuted :
  fold (fun x => x) (Hier r_head [r_p; r_q]) [1]%nat (nm "part") = Ok (apart r_head r_p r_q)
  /\ scoped r_head [r_p; r_q] /\ linked r_head [r_p; r_q] [1]%nat
  /\ exists e, possible one_ holds (apart r_head r_p r_q) (formals r_head) e
     /\ ~ possible one_ holds (Hier r_head [r_p; r_q]) (formals r_head) e.
Proof. exact r_bad. Qed.
Print Assumptions C60_rising_refuted.

(* So is one by a name with several ranges. *)
Theorem C60_ranges_refuted :
  fold (fun x => x) (Hier m_head [m_p; m_q]) [1]%nat (nm "part") = Ok (apart m_head m_p m_q)
  /\ scoped m_head [m_p; m_q] /\ linked m_head [m_p; m_q] [1]%nat
  /\ exists e, possible one_ holds (apart m_head m_p m_q) (formals m_head) e
     /\ ~ possible one_ holds (Hier m_head [m_p; m_q]) (formals m_head) e.
Proof. exact m_bad. Qed.
Print Assumptions C60_ranges_refuted.

(* A wire that the folded children use among themselves and that others use too is no longer
   declared. *)
Theorem C60_scope_refuted :
  (scoped k_head [k_A; k_B; k_C; k_D] /\ simply k_head [k_A; k_B; k_C; k_D] /\ linked k_head [k_A; k_B; k_C; k_D] [1; 2]%nat)
  /\ exists h l, fold (fun x => x) (Hier k_head [k_A; k_B; k_C; k_D]) [1; 2]%nat (nm "part") = Ok (Hier h l)
     /\ ~ scoped h l.
Proof. split; [exact k_ok|]. do 2 eexists. split; [exact (proj1 k_runs)|exact k_lost]. Qed.
Print Assumptions C60_scope_refuted.

(* For this reason a later unfolding takes that wire for a free name and joins it with an
   internal wire of another instance. *)
Theorem C60_capture_refuted : exists p q,
  fold (fun x => x) (Hier k_head [k_A; k_B; k_C; k_D]) [1; 2]%nat (nm "part") = Ok p
  /\ unfold (fun x => x) p 3 = Ok q
  /\ exists e, possible one_ holds (Hier k_head [k_A; k_B; k_C; k_D]) (formals k_head) e
     /\ ~ possible one_ holds q (formals k_head) e.
Proof. exists k_folded, k_flat. exact (conj (proj1 k_runs) (conj (proj2 k_runs) k_bad)). Qed.
Print Assumptions C60_capture_refuted.

(* An output that nothing reads is not declared in the new instance. *)
Theorem C60_unread_refuted : exists h l, fold (fun x => x) (Hier k_head [o_p]) [1]%nat (nm "part") = Ok (Hier k_head [Hier h l])
  /\ scoped k_head [o_p] /\ ~ scoped h l.
Proof. do 2 eexists. exact o_runs. Qed.
Print Assumptions C60_unread_refuted.
