(* Model of symbolic trajectory evaluation, src/bin/fl/fsm.c: the event list
   (3401-3660), the event wheel (5762-5915), update_node (7155), initialize (7238)
   and gSTE (8570).

   Rails are of an arbitrary type V with the operations c_AND, c_OR, c_NOT and the
   test c_EQ.  Node tables and value buffers are functions of the node index.
   An operation that dereferences a NULL pointer gives None.

   qsort is a parameter: any function that permutes the list and leaves it in an
   order that event_cmp accepts.  event_cmp subtracts ints; the model has integers
   without a bound, that is times and indices whose differences fit in an int.

   Not represented: printing and the warning counters, the options -a (stop at the
   first failure), -m (time limit), the stop node and interrupts, garbage
   collection, traces with has_trace (snapshots of all nodes, as with -e, are kept
   instead), the information flow variant of weakening. *)
From Coq Require Import List Arith NArith ZArith Bool.
From Verif Require Import FsmOps.
Import ListNotations.

(* fsm.h 206 *)
Inductive ety := start_weak | start_ant | start_cons | start_trace
               | end_weak | end_ant | end_cons | end_trace.
Definition ety_num (y : ety) : Z :=
  match y with
  | start_weak => 0 | start_ant => 1 | start_cons => 2 | start_trace => 3
  | end_weak => 4 | end_ant => 5 | end_cons => 6 | end_trace => 7
  end.

Section Ste.
Variable V : Type.
Variables cand cor : V -> V -> V.    (* c_AND, c_OR *)
Variable cnot : V -> V.              (* c_NOT *)
Variables czero cone : V.            (* c_ZERO, c_ONE *)
Variable ceq : V -> V -> bool.       (* c_EQ; c_NEQ is its negation *)
Variable weakening : bool.           (* BDD_size_limit >= 0 *)
Variable big : V -> bool.            (* Get_bdd_size(r, limit) >= limit *)
Local Notation rail := (V * V)%type.     (* (H, L) *)

(* event_rec, fsm.h 217 *)
Record event := Ev { e_id : nat; e_ty : ety; e_nd : nat; e_time : Z; e_H : V; e_L : V }.

(* The fl values: (when, node, from, to), (when, node, value, from, to) and
   (node, from, to); nodes are given by their index, name2idx is not modelled. *)
Record weak_t := Weak { w_when : V; w_nd : nat; w_from : Z; w_to : Z }.
Record cond_t := Cond { k_when : V; k_nd : nat; k_val : V; k_from : Z; k_to : Z }.
Record trace_t := Trace { t_nd : nat; t_from : Z; t_to : Z }.

(* event_cmp 3401 *)
Definition event_cmp (e1 e2 : event) : Z :=
  if (e_time e2 =? e_time e1)%Z then
    if e_nd e1 =? e_nd e2 then (ety_num (e_ty e1) - ety_num (e_ty e2))%Z
    else (Z.of_nat (e_nd e2) - Z.of_nat (e_nd e1))%Z
  else (e_time e2 - e_time e1)%Z.

(* create_event_buffer 3417, the four loops *)
Definition weak_events (id : nat) (w : weak_t) : list event :=
  [Ev id start_weak (w_nd w) (w_from w) (w_when w) (w_when w);
   Ev id end_weak (w_nd w) (w_to w) (w_when w) (w_when w)].
Definition cond_events (s e : ety) (id : nat) (k : cond_t) : list event :=
  [Ev id s (k_nd k) (k_from k) (cor (cnot (k_when k)) (k_val k)) (cor (cnot (k_when k)) (cnot (k_val k)));
   Ev id e (k_nd k) (k_to k) cone cone].
Definition trace_events (id : nat) (r : trace_t) : list event :=
  [Ev id start_trace (t_nd r) (t_from r) czero czero;
   Ev id end_trace (t_nd r) (t_to r) czero czero].
Fixpoint number {A} (f : nat -> A -> list event) (id : nat) (l : list A) : list event :=
  match l with [] => [] | x :: l => f id x ++ number f (S id) l end.
Definition create_events (wl : list weak_t) (ant cons : list cond_t) (trl : list trace_t) : list event :=
  number weak_events 0 wl ++
  number (cond_events start_ant end_ant) (length wl) ant ++
  number (cond_events start_cons end_cons) (length wl + length ant) cons ++
  number trace_events (length wl + length ant + length cons) trl.
(* okA, okC 3473, 3522: assertion_OK and check_OK are the conjunctions *)
Definition ok_conds (l : list cond_t) : V :=
  fold_left (fun v k => cand v (cor (cor (cnot (k_when k)) (k_val k))
                                    (cor (cnot (k_when k)) (cnot (k_val k))))) l cone.

Definition fupd {A} (f : nat -> A) (n : nat) (v : A) : nat -> A :=
  fun m => if m =? n then v else f m.

(* The part of the state that events change: the has_* bits of the nodes, the
   three tables of active events, the three value buffers, and no_weakening of the
   composites. *)
Record estate := ES {
  hw : nat -> bool; ha : nat -> bool; hc : nat -> bool; ht : nat -> bool;
  chg : nat -> bool;                       (* has_ant_or_weak_change *)
  tw : nat -> list event; ta : nat -> list event; tc : nat -> list event;
  wb : nat -> rail; ab : nat -> rail; cb : nat -> rail;
  nowk : nat -> bool }.

(* delete_active_event 8490: the first entry with the id; NULL if there is none *)
Fixpoint delete_active (id : nat) (l : list event) : option (list event) :=
  match l with
  | [] => None
  | e :: l => if e_id e =? id then Some l
              else match delete_active id l with Some l' => Some (e :: l') | None => None end
  end.
Definition conj (l : list event) : rail :=
  fold_left (fun r e => (cand (fst r) (e_H e), cand (snd r) (e_L e))) l (cone, cone).

(* A circuit: node count, composite driving a node, composites reading it. *)
Record comp := Comp { c_op : wop; c_size : nat; c_ins : list nat; c_outs : list nat;
                      c_phase : bool; c_rank : nat }.
Record net := Net { nn : nat; comps : list comp; driver : nat -> option nat;
                    fanouts : nat -> list nat; ranks : nat }.
Definition dummy : comp := Comp OX 0 [] [] false 0.
Definition cmp (N : net) (k : nat) : comp := nth k (comps N) dummy.

(* 3608, 3622 *)
Definition set_nowk (N : net) (s : estate) (e : event) (v : bool) : nat -> bool :=
  if ceq (e_H e) czero && ceq (e_L e) czero
  then match driver N (e_nd e) with Some k => fupd (nowk s) k v | None => nowk s end
  else nowk s.

(* process_event 3575, one event *)
Definition proc (N : net) (e : event) (s : estate) : option estate :=
  let n := e_nd e in
  let c v := fupd (chg s) n v in
  match e_ty e with
  | start_trace => Some (ES (hw s) (ha s) (hc s) (fupd (ht s) n true) (c false)
      (tw s) (ta s) (tc s) (wb s) (ab s) (cb s) (nowk s))
  | end_trace => Some (ES (hw s) (ha s) (hc s) (fupd (ht s) n false) (c false)
      (tw s) (ta s) (tc s) (wb s) (ab s) (cb s) (nowk s))
  | start_weak =>
      let l := e :: tw s n in
      Some (ES (fupd (hw s) n true) (ha s) (hc s) (ht s) (c true)
        (fupd (tw s) n l) (ta s) (tc s) (fupd (wb s) n (conj l)) (ab s) (cb s) (set_nowk N s e true))
  | end_weak =>
      match delete_active (e_id e) (tw s n) with
      | None => None
      | Some l => Some (ES (fupd (hw s) n false) (ha s) (hc s) (ht s) (c true)
          (fupd (tw s) n l) (ta s) (tc s) (fupd (wb s) n (conj l)) (ab s) (cb s) (set_nowk N s e false))
      end
  | start_ant =>
      let l := e :: ta s n in
      Some (ES (hw s) (fupd (ha s) n true) (hc s) (ht s) (c true)
        (tw s) (fupd (ta s) n l) (tc s) (wb s) (fupd (ab s) n (conj l)) (cb s) (nowk s))
  | end_ant =>
      match delete_active (e_id e) (ta s n) with
      | None => None
      | Some l => Some (ES (hw s) (fupd (ha s) n false) (hc s) (ht s) (c true)
          (tw s) (fupd (ta s) n l) (tc s) (wb s) (fupd (ab s) n (conj l)) (cb s) (nowk s))
      end
  | start_cons =>
      let l := e :: tc s n in
      Some (ES (hw s) (ha s) (fupd (hc s) n true) (ht s) (c false)
        (tw s) (ta s) (fupd (tc s) n l) (wb s) (ab s) (fupd (cb s) n (conj l)) (nowk s))
  | end_cons =>
      match delete_active (e_id e) (tc s n) with
      | None => None
      | Some l => Some (ES (hw s) (ha s) (fupd (hc s) n false) (ht s) (c false)
          (tw s) (ta s) (fupd (tc s) n l) (wb s) (ab s) (fupd (cb s) n (conj l)) (nowk s))
      end
  end.
(* process_event: the buffer is popped from its end, so evs is the reversed buffer *)
Fixpoint process (N : net) (evs : list event) (t : Z) (s : estate) : option (list event * estate) :=
  match evs with
  | [] => Some ([], s)
  | e :: r => if (t <? e_time e)%Z then Some (evs, s)
              else match proc N e s with Some s' => process N r t s' | None => None end
  end.
(* 8764, 8773: has_ant_or_weak_change is cleared for all nodes after each time *)
Definition clear_chg (s : estate) : estate :=
  ES (hw s) (ha s) (hc s) (ht s) (fun _ => false) (tw s) (ta s) (tc s) (wb s) (ab s) (cb s) (nowk s).
(* 7241, 8531: state before the first event.  Neither initialize nor declare_vector
   (5103) sets has_ant_or_weak_change, so its first value is arbitrary. *)
Variable chg0 : nat -> bool.
Definition es0 : estate :=
  ES (fun _ => false) (fun _ => false) (fun _ => false) (fun _ => false) chg0
     (fun _ => []) (fun _ => []) (fun _ => [])
     (fun _ => (czero, czero)) (fun _ => (cone, cone)) (fun _ => (cone, cone)) (fun _ => false).

(* The part that simulation changes: cur_buf, next_buf, has_phase_event, the flags of
   the composites, the wheel (a stack for each rank), validTrajectory. *)
Record sstate := SS {
  cur : nat -> rail; nxt : nat -> rail; pev : nat -> bool;
  flag : nat -> bool; wheel : nat -> list nat; valid : V }.

(* add_op_todo 5762 *)
Definition todo (N : net) (k : nat) (s : sstate) : sstate :=
  if flag s k then s
  else let r := c_rank (cmp N k) in
       SS (cur s) (nxt s) (pev s) (fupd (flag s) k true)
          (fupd (wheel s) r (k :: wheel s r)) (valid s).
(* update_node 7155, with the number of fanouts *)
Definition new_val (E : estate) (n : nat) (r : rail) : rail :=
  let r := if hw E n then (cor (fst r) (fst (wb E n)), cor (snd r) (snd (wb E n))) else r in
  if ha E n then (cand (fst r) (fst (ab E n)), cand (snd r) (snd (ab E n))) else r.
Definition update_node (N : net) (E : estate) (n : nat) (r : rail) (s : sstate) : sstate * nat :=
  let r' := new_val E n r in
  let v := if ha E n then cand (valid s) (cor (fst r') (snd r')) else valid s in
  let s' := SS (fupd (cur s) n r') (nxt s) (pev s) (flag s) (wheel s) v in
  if ceq (fst r') (fst (cur s n)) && ceq (snd r') (snd (cur s n)) then (s', 0)
  else (fold_left (fun s k => todo N k s) (fanouts N n) s', length (fanouts N n)).

(* do_wl_op 5857 *)
Definition eval_comp (E : estate) (N : net) (k : nat) (f : nat -> rail) : list rail :=
  let c := cmp N k in
  if weakening && negb (nowk E k)
  then eval_op V (limited big cone cand) (limited big cone cor) czero cone (c_op c) (c_size c) (map f (c_ins c))
  else eval_op V cand cor czero cone (c_op c) (c_size c) (map f (c_ins c)).
Fixpoint put_next (outs : list nat) (i : nat) (l : list rail) (s : sstate) : sstate :=
  match outs with
  | [] => s
  | n :: r => put_next r (S i) l
      (SS (cur s) (fupd (nxt s) n (nth i l (cone, cone))) (fupd (pev s) n true) (flag s) (wheel s) (valid s))
  end.
Fixpoint put_now (N : net) (E : estate) (outs : list nat) (i : nat) (l : list rail)
    (s : sstate) (cnt : nat) : sstate * nat :=
  match outs with
  | [] => (s, cnt)
  | n :: r => let '(s', d) := update_node N E n (nth i l (cone, cone)) s in
              put_now N E r (S i) l s' (cnt + d)
  end.
Definition do_op (N : net) (E : estate) (k : nat) (s : sstate) : sstate * nat :=
  let l := eval_comp E N k (cur s) in
  let c := cmp N k in
  if c_phase c then (put_next (c_outs c) 0 l s, length (c_outs c))
  else put_now N E (c_outs c) 0 l s 0.

(* do_combinational 5795.  gas bounds the model only: None is a run that did not end
   within it.  The inner loop of one rank, then one sweep over the ranks from the
   highest to 0 (with a bit for "every buffer was empty"), then the sweeps. *)
Fixpoint drain (N : net) (E : estate) (gas : nat) (r : nat) (s : sstate) (cnt : nat)
    : option (sstate * nat) :=
  match wheel s r with
  | [] => Some (s, cnt)
  | k :: w =>
      match gas with
      | 0 => None
      | S gas =>
          let s1 := SS (cur s) (nxt s) (pev s) (fupd (flag s) k false) (fupd (wheel s) r w) (valid s) in
          let '(s2, d) := do_op N E k s1 in
          drain N E gas r s2 (cnt + d)
      end
  end.
Fixpoint sweep (N : net) (E : estate) (gas : nat) (r : nat) (s : sstate) (cnt : nat) (empty : bool)
    : option (sstate * nat * bool) :=
  let empty := empty && match wheel s r with [] => true | _ => false end in
  match drain N E gas r s cnt with
  | None => None
  | Some (s, cnt) => match r with
                     | 0 => Some (s, cnt, empty)
                     | S r => sweep N E gas r s cnt empty
                     end
  end.
(* result: state, todo, and true if RCStep_limit was reached (the value -1) *)
Fixpoint combinational (N : net) (E : estate) (gas : nat) (iterations : nat) (s : sstate) (cnt : nat)
    : option (sstate * nat * bool) :=
  match iterations with
  | 0 => Some (s, cnt, true)
  | S it =>
      match sweep N E gas (ranks N) s cnt true with
      | None => None
      | Some (s, cnt, empty) => if empty then Some (s, cnt, false) else combinational N E gas it s cnt
      end
  end.

(* do_phase 5772; nodes 0-3 are the constants 0, 1, X, top *)
Definition phase1 (N : net) (E : estate) (s : sstate) (n : nat) : sstate :=
  if (3 <? n) && match driver N n with None => true | Some _ => false end
  then fst (update_node N E n (cone, cone) s)
  else if pev s n
  then fst (update_node N E n (nxt s n)
         (SS (cur s) (nxt s) (fupd (pev s) n false) (flag s) (wheel s) (valid s)))
  else s.
Definition do_phase (N : net) (E : estate) (s : sstate) : sstate :=
  fold_left (phase1 N E) (seq 0 (nn N)) s.

(* allocate_ste_buffers 8531, initialize 7238 *)
Definition cur0 (n : nat) : rail :=
  match n with 0 => (czero, cone) | 1 => (cone, czero) | 2 => (cone, cone) | 3 => (czero, czero)
          | _ => (cone, cone) end.
Definition ss0 (N : net) : sstate :=
  fold_left (fun s k => todo N k s) (seq 0 (length (comps N)))
    (SS cur0 (fun _ => (cone, cone)) (fun _ => false) (fun _ => false) (fun _ => []) cone).
(* RCStep_limit is used for the sweeps and for the phases *)
Fixpoint initialize (N : net) (gas limit : nat) (iterations : nat) (s : sstate) : option sstate :=
  match iterations with
  | 0 => None
  | S it =>
      match combinational N es0 gas limit s 0 with
      | Some (s, 0, false) => Some s
      | Some (s, _, false) => initialize N gas limit it (do_phase N es0 s)
      | _ => None
      end
  end.

(* gSTE 8761: nodes whose conditions changed *)
Definition change1 (N : net) (E : estate) (s : sstate) (n : nat) : sstate :=
  if chg E n then
    match driver N n with
    | Some k => todo N k s
    | None => fst (update_node N E n (cone, cone) s)
    end
  else s.
(* gSTE 8777: consequents *)
Definition check1 (E : estate) (s : sstate) (v : V) (n : nat) : V :=
  if hc E n then cand (cand v (cor (cnot (fst (cur s n))) (fst (cb E n))))
                      (cor (cnot (snd (cur s n))) (snd (cb E n)))
  else v.

(* What a run leaves: checkTrajectory, validTrajectory, the values of all nodes at each
   time (latest first) and whether do_combinational ever gave up. *)
Record result := Res { r_check : V; r_valid : V; r_vals : list (Z * (nat -> rail)); r_gave_up : bool }.

(* one time t of the loop at 8713 *)
Definition at_time (N : net) (gas limit : nat) (t : Z) (x : list event * estate * sstate * result)
    : option (list event * estate * sstate * result) :=
  let '(evs, E, s, r) := x in
  match process N evs t E with
  | None => None
  | Some (evs, E) =>
      let s := fold_left (change1 N E) (seq 0 (nn N)) s in
      let E := clear_chg E in
      match combinational N E gas limit s 0 with
      | None => None
      | Some (s, _, gave_up) =>
          let v := fold_left (check1 E s) (seq 0 (nn N)) (r_check r) in
          let s' := do_phase N E s in
          Some (evs, E, s', Res v (valid s') ((t, cur s) :: r_vals r) (r_gave_up r || gave_up))
      end
  end.
Fixpoint times (N : net) (gas limit : nat) (t : Z) (n : nat) (x : list event * estate * sstate * result)
    : option (list event * estate * sstate * result) :=
  match n with
  | 0 => Some x
  | S n => match at_time N gas limit t x with
           | None => None
           | Some x => times N gas limit (t + 1)%Z n x
           end
  end.
(* gSTE: the buffer is sorted, min_time is the time of its last entry, max_time that of
   its first plus 1.  srt is qsort. *)
Definition gSTE (srt : list event -> list event) (N : net) (gas limit : nat)
    (wl : list weak_t) (ant cons : list cond_t) (trl : list trace_t) : option result :=
  let evs := rev (srt (create_events wl ant cons trl)) in
  match initialize N gas limit limit (ss0 N) with
  | None => None
  | Some s =>
      let r := Res cone (valid s) [] false in
      match evs with
      | [] => Some r
      | e :: _ =>
          let max := (e_time (last evs e) + 1)%Z in
          match times N gas limit (e_time e) (Z.to_nat (max - e_time e + 1)) (evs, es0, s, r) with
          | None => None
          | Some (_, _, _, r) => Some r
          end
      end
  end.
End Ste.
