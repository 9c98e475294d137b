(* Index lists and the mapping of vector names to node indices
   (src/bin/fl/fsm.c, src/bin/fl/voss_strings.c).

   A C int is a Z: the arithmetic overflow of int is not modelled.  Records of linked lists
   are Coq lists.  Outcome None stands for the longjmp of find_index_from_end, for the error
   exit Rprintf, for a failing ASSERT and for a dereference of NULL. *)
From Coq Require Import ZArith List Bool Ascii String Lia.
Import ListNotations.
Open Scope Z_scope.

(* ilist_rec (fsm.h): a run of node indices. *)
Record iseg := Seg { i_from : Z; i_to : Z; i_size : Z }.
Definition ilist := list iseg.

(* FOREACH_NODE (fsm.h 310-312): from `from', size steps, downwards if from > to. *)
Definition seg_nodes (s : iseg) : list Z :=
  map (fun k => if i_from s >? i_to s then i_from s - Z.of_nat k else i_from s + Z.of_nat k)
      (seq 0 (Z.to_nat (i_size s))).

Definition nodes (l : ilist) : list Z := flat_map seg_nodes l.

(* compute_ilist_length (fsm.c 5528-5537). *)
Fixpoint ilist_length (l : ilist) : Z :=
  match l with [] => 0 | s :: r => i_size s + ilist_length r end.

(* ilist_append (fsm.c 5539-5549): the destructive update of l1 is not modelled. *)
Definition ilist_append (l1 l2 : ilist) : ilist := l1 ++ l2.

Definition new_seg (a b : Z) : iseg := Seg a b (Z.abs (b - a) + 1).

(* append_range (fsm.c 5551-5593). *)
Fixpoint append_range (l : ilist) (a b : Z) : ilist :=
  match l with
  | [] => [new_seg a b]
  | [cur] =>
      let single := i_from cur =? i_to cur in
      let down := i_from cur >? i_to cur in
      let up := i_from cur <? i_to cur in
      let nsingle := a =? b in
      let ndown := a >? b in
      let nup := a <? b in
      if (single || up) && (i_to cur + 1 =? a) && (nup || nsingle) then
        [new_seg (i_from cur) b]
      else if (single || down) && (i_to cur - 1 =? a) && (ndown || nsingle) then
        [new_seg (i_from cur) b]
      else [cur; new_seg a b]
  | s :: r => s :: append_range r a b
  end.

(* translate_range (fsm.c 5595-5627), second loop. *)
Fixpoint tr_take (mp : ilist) (result : ilist) (from cur size : Z) : option ilist :=
  match mp with
  | [] => None
  | s :: r =>
      let dir := if i_from s >? i_to s then -1 else 1 in
      let start := i_from s + (from - cur) * dir in
      let remain := i_size s - Z.abs (start - i_from s) in
      if remain >=? size then
        Some (append_range result start (start + (size - 1) * dir))
      else
        let used := Z.abs (i_to s - start) + 1 in
        tr_take r (append_range result start (i_to s)) (from + used) (cur + i_size s)
                (size - used)
  end.

(* translate_range, first loop. *)
Fixpoint tr_skip (mp : ilist) (from cur size : Z) : option ilist :=
  match mp with
  | [] => None
  | s :: r =>
      if cur + i_size s >? from then tr_take mp [] from cur size
      else tr_skip r from (cur + i_size s) size
  end.

Definition translate_range (mp : ilist) (from to : Z) : option ilist :=
  if from <=? to then tr_skip mp from 0 (to - from + 1) else None.

(* ilist_sel (fsm.c 5454-5466). *)
Fixpoint ilist_sel (l : ilist) (idx : Z) : option Z :=
  match l with
  | [] => None
  | s :: r =>
      if i_size s <=? idx then ilist_sel r (idx - i_size s)
      else Some (if i_from s >=? i_to s then i_from s - idx else i_from s + idx)
  end.

(* vec_rec (voss_strings.h): alternating texts and index ranges (upper, lower). *)
Inductive vel := Txt (n : string) | Idx (rs : list (Z * Z)).
Definition vec := list vel.

(* vec_size (fsm.c 5362-5379). *)
Fixpoint vec_size (v : vec) : Z :=
  match v with
  | [] => 1
  | Txt _ :: r => vec_size r
  | Idx rs :: r =>
      fold_left (fun sum p => sum + (Z.abs (fst p - snd p) + 1) * vec_size r) rs 0
  end.

(* get_stride (fsm.c 5381-5396).  The source takes |upper - lower + 1|. *)
Definition get_stride (v : vec) : Z :=
  fold_left (fun res e => match e with
                          | Txt _ => res
                          | Idx rs =>
                              res * fold_left (fun s p => s + Z.abs (fst p - snd p + 1)) rs 0
                          end) v 1.

(* inside (fsm.c 5398-5404). *)
Definition inside (i u l : Z) : bool :=
  if (u <? l) && (u <=? i) && (i <=? l) then true
  else (u >=? l) && (u >=? i) && (i >=? l).

(* find_index_from_end (fsm.c 5406-5421). *)
Fixpoint find_index (i : Z) (rs : list (Z * Z)) (idx : Z) : option Z :=
  match rs with
  | [] => None
  | (u, l) :: r =>
      if inside i u l then Some (idx + Z.abs (i - u))
      else find_index i r (idx + (Z.abs (u - l) + 1))
  end.

(* The loop over i in map_node and in Expand_vector: from upper to lower. *)
Definition range_ints (p : Z * Z) : list Z :=
  let (u, l) := p in
  if u >=? l then map (fun k => u - Z.of_nat k) (seq 0 (Z.to_nat (u - l + 1)))
  else map (fun k => u + Z.of_nat k) (seq 0 (Z.to_nat (l - u + 1))).

(* The updates of idx_map_result and im_cur in map_node (fsm.c 5480-5508).  The list is the
   one starting at idx_map_result, im_cur is its last element. *)
Fixpoint add_node (l : ilist) (n : Z) : ilist :=
  match l with
  | [] => [Seg n n 1]
  | [cur] =>
      if (i_from cur >=? i_to cur) && (n =? i_to cur - 1) then
        [Seg (i_from cur) n (i_size cur + 1)]
      else if (i_from cur <=? i_to cur) && (n =? i_to cur + 1) then
        [Seg (i_from cur) n (i_size cur + 1)]
      else [cur; Seg n n 1]
  | s :: r => s :: add_node r n
  end.

(* map_node (fsm.c 5468-5526); acc is the list at idx_map_result. *)
Fixpoint map_node (decl v : vec) (mp : ilist) (cur : Z) (acc : ilist) {struct v}
  : option ilist :=
  match v, decl with
  | [], [] =>
      match ilist_sel mp cur with Some n => Some (add_node acc n) | None => None end
  | Txt a :: v', Txt b :: d' =>
      if String.eqb a b then map_node d' v' mp cur acc else None
  | Idx rs :: v', Idx ds :: d' =>
      let stride := get_stride d' in
      fold_left
        (fun o i =>
           match o with
           | None => None
           | Some acc' =>
               match find_index i ds 0 with
               | Some idx => map_node d' v' mp (cur + stride * idx) acc'
               | None => None
               end
           end)
        (flat_map range_ints rs) (Some acc)
  | _, _ => None
  end.

(* is_full_range (fsm.c 5423-5452). *)
Definition pair_eqb (p q : Z * Z) : bool := (fst p =? fst q) && (snd p =? snd q).

Fixpoint list_eqb (a b : list (Z * Z)) : bool :=
  match a, b with
  | [], [] => true
  | x :: a', y :: b' => pair_eqb x y && list_eqb a' b'
  | _, _ => false
  end.

Fixpoint is_full_range (v1 v2 : vec) : option bool :=
  match v1, v2 with
  | [], [] => Some true
  | Txt a :: r1, Txt b :: r2 => if String.eqb a b then is_full_range r1 r2 else Some false
  | Idx a :: r1, Idx b :: r2 => if list_eqb a b then is_full_range r1 r2 else Some false
  | _, _ => None
  end.

(* Expand_vector (voss_strings.c 335-403). *)
Fixpoint expand_vector (v : vec) : list vec :=
  match v with
  | [] => [[]]
  | Txt n :: r => map (cons (Txt n)) (expand_vector r)
  | Idx rs :: r =>
      flat_map (fun i => map (cons (Idx [(i, i)])) (expand_vector r))
               (flat_map range_ints rs)
  end.

(* vec_info_rec: the declaration and the indices given to it; the chain of declarations with
   one signature is a list. *)
Definition vinfo := (vec * ilist)%type.

(* One attempt of map_vector (fsm.c 5302-5314 and 5327-5338). *)
Definition try_decl (v : vec) (i : vinfo) : option ilist :=
  match is_full_range (fst i) v with
  | Some true => Some (snd i)
  | Some false => map_node (fst i) v (snd i) 0 []
  | None => None
  end.

(* The loops over ip.  In the second one an empty result also moves on to the next
   declaration. *)
Fixpoint first_decl (v : vec) (ds : list vinfo) : option ilist :=
  match ds with
  | [] => None
  | i :: r => match try_decl v i with Some l => Some l | None => first_decl v r end
  end.

Fixpoint first_nonempty (v : vec) (ds : list vinfo) : option ilist :=
  match ds with
  | [] => None
  | i :: r =>
      match try_decl v i with
      | Some (s :: l) => Some (s :: l)
      | _ => first_nonempty v r
      end
  end.

(* *next_list = idx_map_result; next_list = &(idx_map_result->next): what is stored next
   replaces everything after the first record of the last list stored. *)
Fixpoint chain_scalars (vs : list vec) (ds : list vinfo) (last : ilist) : option ilist :=
  match vs with
  | [] => Some last
  | v :: r =>
      match first_nonempty v ds with
      | None => None
      | Some l =>
          match chain_scalars r ds l with
          | None => None
          | Some rest =>
              Some (match last with [] => rest | s :: _ => s :: rest end)
          end
      end
  end.

(* map_vector (fsm.c 5255-5360) for a name that is not a constant and whose signature is
   declared; ds is the chain found in the hash table. *)
Definition map_vector (ds : list vinfo) (v : vec) : option ilist :=
  match first_decl v ds with
  | Some l => Some l
  | None => chain_scalars (expand_vector v) ds []
  end.

(* map_vector for a constant: the characters after 0b, in order. *)
Fixpoint map_constant (s : string) : option ilist :=
  match s with
  | EmptyString => Some []
  | String c r =>
      match map_constant r with
      | None => None
      | Some l =>
          if Ascii.eqb c "0"%char then Some (Seg 0 0 1 :: l)
          else if Ascii.eqb c "1"%char then Some (Seg 1 1 1 :: l)
          else if Ascii.eqb c "x"%char then Some (Seg 2 2 1 :: l)
          else None
      end
  end.

(* find_node_index (fsm.c 5147-5171): None is the answer -1.  vp is a scalar name, only the
   first range of an index is looked at; the texts are skipped without a comparison. *)
Fixpoint node_offset (i : Z) (rs : list (Z * Z)) (stride res : Z) : option Z :=
  match rs with
  | [] => None
  | (u, l) :: r =>
      if inside i u l then Some (res + Z.abs (u - i) * stride)
      else node_offset i r stride (res + (Z.abs (u - l) + 1) * stride)
  end.

Fixpoint find_node_index (decl v : vec) (res : Z) : option Z :=
  match v, decl with
  | [], [] => Some res
  | Txt _ :: v', _ :: d' => find_node_index d' v' res
  | Idx ((i, _) :: _) :: v', Idx rs :: d' =>
      match node_offset i rs (get_stride d') res with
      | Some res' => find_node_index d' v' res'
      | None => None
      end
  | _, _ => None
  end.

(* get_real_name (fsm.c 566-598): the name is given as a vector instead of a text, without
   the hierarchy in front.  None also stands for the division by a stride of 0. *)
Fixpoint real_chunk (rs : list (Z * Z)) (stride idx : Z) : option (Z * Z) :=
  match rs with
  | [] => None
  | (u, l) :: r =>
      let chunk := (Z.abs (u - l) + 1) * stride in
      if idx >=? chunk then real_chunk r stride (idx - chunk)
      else if stride =? 0 then None
      else
        let offset := Z.quot idx stride in
        Some (if u >? l then u - offset else u + offset, idx - offset * stride)
  end.

Fixpoint real_name (decl : vec) (idx : Z) : option vec :=
  match decl with
  | [] => Some []
  | Txt n :: d => match real_name d idx with Some v => Some (Txt n :: v) | None => None end
  | Idx rs :: d =>
      match real_chunk rs (get_stride d) idx with
      | None => None
      | Some (i, idx') =>
          match real_name d idx' with
          | Some v => Some (Idx [(i, i)] :: v)
          | None => None
          end
      end
  end.

(* name2idx (fsm.c 5237-5250): the offset in the declaration is added to the first index of
   the declaration's map. *)
Fixpoint name2idx (ds : list vinfo) (v : vec) : option Z :=
  match ds with
  | [] => None
  | (decl, mp) :: r =>
      match mp with
      | [] => None
      | s :: _ =>
          match find_node_index decl v (i_from s) with
          | Some n => if n >=? 0 then Some n else name2idx r v
          | None => name2idx r v
          end
      end
  end.

(* declare_vector (fsm.c 5067-5145) for a vector that is not a formal: new nodes, counted
   from n. *)
Definition fresh_map (decl : vec) (n : Z) : ilist :=
  [Seg n (n + vec_size decl - 1) (vec_size decl)].
