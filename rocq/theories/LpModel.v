(* The decision procedure for linear constraints, src/bin/fl/lp.c: the fl functions LP and LPsol.
   Entries are rational numbers (Qc).  LpRat models the Rational type itself and C46 shows that its
   pairs and operations are exactly those of Qc.
   Memory is left out, except where it shows: the rows of a tableau are an array of pointers to
   arrays, because drive_out goes on using row numbers after it has moved rows. *)
From Coq Require Import ZArith QArith Qcanon List Bool Arith Lia String.
Import ListNotations.
Open Scope nat_scope.
Open Scope list_scope.
Local Notation length := List.length.

Definition q0 : Qc := Q2Qc 0.
Definition q1 : Qc := Q2Qc 1.
Definition qm1 : Qc := Q2Qc (-1).
Definition qlt (a b : Qc) : bool := match (a ?= b)%Qc with Lt => true | _ => false end.
Definition qeq (a b : Qc) : bool := match (a ?= b)%Qc with Eq => true | _ => false end.

(* lp.h 47-56 *)
Inductive relation := EQ | LT | GT | GE | LE | NE | COST.

(* How a function may end: with a value; in DIE or rat_error, which end the program; outside of what
   C defines; or not yet, within the given number of pivots per call of simplex. *)
Inductive res (A : Type) := Ok (a : A) | Die | Undef | More.
Arguments Ok {A}. Arguments Die {A}. Arguments Undef {A}. Arguments More {A}.
Definition bind {A B} (x : res A) (f : A -> res B) : res B :=
  match x with Ok a => f a | Die => Die | Undef => Undef | More => More end.
Notation "'do' x <- e ;; f" := (bind e (fun x => f)) (at level 60, x pattern, e at level 59, right associativity).

Fixpoint upd {A} (i : nat) (v : A) (l : list A) : list A :=
  match l, i with
  | [], _ => []
  | _ :: r, 0 => v :: r
  | x :: r, S k => x :: upd k v r
  end.

(* ------------------------------------------------------------------------------------------ *)
(* The problem as given.  A row: cols[0] is the right hand side, cols[j] the coefficient of x[j]. *)
Record lrow := LRow { l_rel : relation; l_cols : list Qc }.

(* Add_LP_row, 453-475: which relation a string stands for. *)
Definition relation_of (s : string) : relation :=
  if prefix "<" s then
    if String.eqb s "<=" then LE else if String.eqb s "<>" then NE else LT
  else if prefix ">" s then
    if String.eqb s ">=" then GE else GT
  else if String.eqb s "=" then EQ else COST.

(* Add_LP_row and Add_LP_row_elem for one element of the list, 186-198. *)
Definition mk_lrow (e : list Z * (string * Z)) : lrow :=
  LRow (relation_of (fst (snd e))) (map (fun z => Q2Qc (inject_Z z)) (snd (snd e) :: fst e)).

(* ------------------------------------------------------------------------------------------ *)
(* Standard form. *)

Definition rel_has_eq (r : relation) : bool := match r with EQ | LE | GE => true | _ => false end.  (* rel & EQ *)

(* eliminate_zeros, 1460-1507: None for an infeasible zero row. *)
Fixpoint eliminate_zeros (rows : list lrow) : option (list lrow) :=
  match rows with
  | [] => Some []
  | r :: rs =>
      if forallb (qeq q0) (l_cols r) then
        if rel_has_eq (l_rel r) then eliminate_zeros rs else None
      else match eliminate_zeros rs with Some l => Some (r :: l) | None => None end
  end.

Definition negate_row (c : list Qc) : list Qc := map Qcopp c.        (* 1144-1156 *)

(* standard1, 1158-1188, for one row. *)
Definition standard1_row (r : lrow) : res lrow :=
  if qlt (nth 0 (l_cols r) q0) q0 then
    match l_rel r with
    | EQ => Ok (LRow EQ (negate_row (l_cols r)))
    | NE => Ok (LRow NE (negate_row (l_cols r)))
    | GT => Ok (LRow LT (negate_row (l_cols r)))
    | LT => Ok (LRow GT (negate_row (l_cols r)))
    | GE => Ok (LRow LE (negate_row (l_cols r)))
    | LE => Ok (LRow GE (negate_row (l_cols r)))
    | COST => Die
    end
  else Ok r.

Fixpoint standard1 (rows : list lrow) : res (list lrow) :=
  match rows with
  | [] => Ok []
  | r :: rs => do r' <- standard1_row r ;; do rs' <- standard1 rs ;; Ok (r' :: rs')
  end.

(* The test for a constraint x[jj] >= 0, 1236-1252 and 1375-1390: the right hand side is zero, and
   there is just one coefficient, a positive one. *)
Definition single_nonneg (ncol : nat) (c : list Qc) : option nat :=
  if qeq (nth 0 c q0) q0 then
    match filter (fun j => negb (qeq (nth j c q0) q0)) (seq 1 ncol) with
    | [jj] => if qlt q0 (nth jj c q0) then Some jj else None
    | _ => None
    end
  else None.

Definition dropped (ncol : nat) (r : lrow) : option nat :=
  match l_rel r with GE => single_nonneg ncol (l_cols r) | _ => None end.

(* standard2, 1190-1274.  cv[j]: is there a row x[j] >= 0? *)
Record dims := Dims { d_cv : list bool; d_ns : nat; d_drop : nat; d_ur : nat; d_nu : nat; d_strict : bool }.

Definition standard2_row (ncol : nat) (d : dims) (r : lrow) : res dims :=
  match l_rel r with
  | EQ => Ok d
  | NE => Ok (Dims (d_cv d) (S (d_ns d)) (S (d_drop d)) (S (d_ur d)) (d_nu d) true)
  | GT | LT => Ok (Dims (d_cv d) (S (d_ns d)) (d_drop d) (d_ur d) (d_nu d) true)
  | GE =>
      match single_nonneg ncol (l_cols r) with
      | Some jj =>
          Ok (Dims (upd jj true (d_cv d)) (d_ns d) (S (d_drop d)) (d_ur d)
                   (if nth jj (d_cv d) false then d_nu d else d_nu d - 1) (d_strict d))
      | None => Ok (Dims (d_cv d) (S (d_ns d)) (d_drop d) (d_ur d) (d_nu d) (d_strict d))
      end
  | LE => Ok (Dims (d_cv d) (S (d_ns d)) (d_drop d) (d_ur d) (d_nu d) (d_strict d))
  | COST => Die
  end.

Fixpoint standard2_loop (ncol : nat) (d : dims) (rows : list lrow) : res dims :=
  match rows with [] => Ok d | r :: rs => do d' <- standard2_row ncol d r ;; standard2_loop ncol d' rs end.

Definition standard2 (ncol : nat) (rows : list lrow) : res dims :=
  standard2_loop ncol (Dims (repeat false (S ncol)) 0 0 0 ncol false) rows.

(* standard3, 1276-1324: the labels of the columns, varcols[1..]. *)
Fixpoint labels (j : Z) (cv : list bool) : list Z :=
  match cv with
  | [] => []
  | true :: r => j :: labels (j + 1) r
  | false :: r => j :: (- j)%Z :: labels (j + 1) r
  end.

(* The copy of a row with unconstrained variables split, 1410-1416; cv from index 1. *)
Fixpoint split_cols (cv : list bool) (c : list Qc) : list Qc :=
  match cv, c with
  | true :: cv', x :: c' => x :: split_cols cv' c'
  | false :: cv', x :: c' => x :: (- x)%Qc :: split_cols cv' c'
  | _, _ => []
  end.

Definition eps_coeff (r : relation) : Qc := match r with NE | LT => q1 | GT => qm1 | _ => q0 end.    (* 1348-1404 *)
Definition slack_coeff (r : relation) : Qc := match r with NE | LT | LE => q1 | GT | GE => qm1 | _ => q0 end. (* 1422-1430 *)
Definition uses_slack (r : relation) : bool := match r with EQ => false | _ => true end.

(* Standard form: rows with equality, the list of unresolved rows (<>), the column of epsilon and
   the labels.  That all the variables are at least 0 is understood; the source also writes down a
   row for each of these, 1441-1451, which FindBfs leaves out again, 877. *)
Record std := Std { s_rows : list (list Qc); s_unres : list (list Qc); s_ncol : nat; s_eps : option nat; s_vars : list Z }.

(* standard4, 1326-1458, for one row: the new row. *)
Definition standard4_row (cv : list bool) (strict : bool) (ncol slack : nat) (r : lrow) : nat * list Qc :=
  let cells := split_cols cv (tl (l_cols r)) in
  let lastv := length cells + (if strict then 1 else 0) in
  (lastv,
   nth 0 (l_cols r) q0 :: cells
     ++ (if strict then [eps_coeff (l_rel r)] else [])
     ++ map (fun jj => if jj =? slack then slack_coeff (l_rel r) else q0) (seq (S lastv) (ncol - lastv))).

Record filled := Filled { f_slack : nat; f_lastv : nat; f_rows : list (list Qc); f_unres : list (list Qc) }.

Definition standard4_step (oncol : nat) (cv : list bool) (strict : bool) (ncol : nat) (f : filled) (r : lrow) : filled :=
  match dropped oncol r with
  | Some _ => f
  | None =>
      let (lastv, c) := standard4_row cv strict ncol (f_slack f) r in
      let slack := if uses_slack (l_rel r) then f_slack f - 1 else f_slack f in
      match l_rel r with
      | NE => Filled slack lastv (f_rows f) (f_unres f ++ [c])
      | _ => Filled slack lastv (f_rows f ++ [c]) (f_unres f)
      end
  end.

(* lp_StandardTableau, 1510-1542, and the first tests of lp_solution, 335-347: None for an
   infeasible zero row; Some None if no row is left. *)
Definition lp_StandardTableau (oncol : nat) (rows : list lrow) : res (option (option std)) :=
  match eliminate_zeros rows with
  | None => Ok None
  | Some [] => Ok (Some None)
  | Some rows' =>
      do rs <- standard1 rows' ;;
      do d <- standard2 oncol rs ;;
      let cv := tl (d_cv d) in
      let ncol := oncol + d_nu d + d_ns d + (if d_strict d then 1 else 0) in
      let eps := if d_strict d then Some (ncol - d_ns d) else None in
      let f := fold_left (standard4_step oncol cv (d_strict d) ncol) rs (Filled ncol 0 [] []) in
      if (f_slack f =? f_lastv f) && (length (f_rows f) + d_drop d =? length rs) then
        Ok (Some (Some (Std (f_rows f) (f_unres f) ncol eps (0%Z :: labels 1 cv))))
      else Die
  end.

(* ------------------------------------------------------------------------------------------ *)
(* Tableaus.  Row i is the array at pointer i; row 0 is the cost row; entry 0 is the right side. *)
Record tab := Tab { nrow : nat; ncol : nat; eps : option nat; ptr : list nat; mem : list (list Qc);
                    unres : list (list Qc); vars : list Z }.

Definition row (t : tab) (i : nat) : list Qc := nth (nth i (ptr t) 0) (mem t) [].
Definition get (t : tab) (i j : nat) : Qc := nth j (row t i) q0.
Definition is_eps (t : tab) (j : nat) : bool := match eps t with Some e => j =? e | None => false end.
Definition with_mem (t : tab) (m : list (list Qc)) : tab :=
  Tab (nrow t) (ncol t) (eps t) (ptr t) m (unres t) (vars t).

(* r - y * s, entry by entry *)
Definition sub_mul (y : Qc) (r s : list Qc) : list Qc := map (fun p => (fst p - y * snd p)%Qc) (combine r s).

(* pivot, 715-749.  The rows are changed in place, one after the other. *)
Definition pivot (t : tab) (i j : nat) : res tab :=
  let p := nth i (ptr t) 0 in
  let x := get t i j in
  if qeq x q0 then Die
  else
    let m1 := upd p (map (fun v => (v / x)%Qc) (nth p (mem t) [])) (mem t) in
    let m2 := fold_left (fun m ii =>
                if ii =? i then m
                else
                  let q := nth ii (ptr t) 0 in
                  upd q (sub_mul (nth j (nth q m []) q0) (nth q m []) (nth p m [])) m)
              (seq 0 (S (nrow t))) m1 in
    Ok (with_mem t m2).

(* The choice of the column in simplex, 762-775 (bland is never set): 0 if there is none. *)
Definition pick_col (noeps : bool) (t : tab) : nat :=
  fst (fold_left (fun (s : nat * Qc) j =>
         if noeps && is_eps t j then s
         else if qlt (get t 0 j) q0 && qlt (get t 0 j) (snd s) then (j, get t 0 j) else s)
       (seq 1 (ncol t)) (0, q0)).

(* The choice of the row, 779-795: 0 if there is none. *)
Definition pick_row (t : tab) (jj : nat) : nat :=
  fst (fold_left (fun (s : nat * Qc) i =>
         if qlt q0 (get t i jj) then
           let theta := (get t i 0 / get t i jj)%Qc in
           if (fst s =? 0) || qlt theta (snd s) then (i, theta) else s
         else s)
       (seq 1 (nrow t)) (0, q0)).

(* One round of the loop of simplex, 760-806; inr: the loop ends, with the value of unbounded. *)
Definition simplex_step (noeps : bool) (t : tab) : res (tab + bool) :=
  let jj := pick_col noeps t in
  if jj =? 0 then Ok (inr false)
  else
    let ii := pick_row t jj in
    if ii =? 0 then Ok (inr true) else do t' <- pivot t ii jj ;; Ok (inl t').

(* simplex, 751-809. *)
Fixpoint simplex (fuel : nat) (noeps : bool) (t : tab) : res (tab * bool) :=
  match fuel with
  | 0 => More
  | S k =>
      do s <- simplex_step noeps t ;;
      match s with inr ub => Ok (t, ub) | inl t' => simplex k noeps t' end
  end.

(* in_basis, 633-649: the row of the 1 if column j is otherwise 0. *)
Fixpoint in_basis_loop (t : tab) (j : nat) (entry : option nat) (is : list nat) : option nat :=
  match is with
  | [] => entry
  | ii :: r =>
      if qeq (get t ii j) q1 && match entry with None => true | _ => false end then in_basis_loop t j (Some ii) r
      else if negb (qeq (get t ii j) q0) then None
      else in_basis_loop t j entry r
  end.
Definition in_basis (t : tab) (j : nat) : option nat := in_basis_loop t j None (seq 0 (S (nrow t))).

(* find_basis, 652-676: for each column from 1 its row, or 0. *)
Definition find_basis (t : tab) : list nat :=
  0 :: fst (fold_left (fun (s : list nat * list nat) j =>
              let (basis, marked) := s in
              match in_basis t j with
              | Some i =>
                  if (0 <? i) && negb (existsb (Nat.eqb i) marked) && negb (is_eps t j)
                  then (basis ++ [i], i :: marked) else (basis ++ [0], marked)
              | None => (basis ++ [0], marked)
              end)
            (seq 1 (ncol t)) ([], [])).

(* diagonalize, 679-712. *)
Definition diagonalize (t : tab) (r : list Qc) : list Qc :=
  let basis := find_basis t in
  fold_left (fun c j =>
    let i := nth j basis 0 in
    if 0 <? i then map (fun p => (snd p - fst p * nth j c q0)%Qc) (combine (row t i) c) else c)
  (seq 1 (ncol t)) r.

(* find_non_zero, 812-823. *)
Definition find_non_zero (t : tab) (ii : nat) : option nat :=
  find (fun j => negb (is_eps t j) && negb (qeq (get t ii j) q0)) (seq 1 (ncol t - nrow t)).

(* removeRowFromBasic, 616-630: the last row takes the place of row i; its pointer also stays. *)
Definition removeRowFromBasic (t : tab) (i : nat) : res tab :=
  if nrow t <? i then Die
  else Ok (Tab (nrow t - 1) (ncol t) (eps t) (upd i (nth (nrow t) (ptr t) 0) (ptr t)) (mem t) (unres t) (vars t)).

(* drive_out, 826-854.  The source returns NULL for an infeasible row, and FindBfs then reads
   through it, 927. *)
Fixpoint drive_out_loop (basis : list nat) (is : list nat) (t : tab) : res tab :=
  match is with
  | [] => Ok t
  | i :: r =>
      let ii := nth i basis 0 in
      if 0 <? ii then
        match find_non_zero t ii with
        | None =>
            if qeq (get t ii 0) q0 then do t' <- removeRowFromBasic t ii ;; drive_out_loop basis r t'
            else Undef
        | Some jj => do t' <- pivot t ii jj ;; drive_out_loop basis r t'
        end
      else drive_out_loop basis r t
  end.
Definition drive_out (t : tab) : res tab :=
  drive_out_loop (find_basis t) (seq (ncol t - nrow t + 1) (nrow t)) t.

(* FindBfs, 856-935: the tableau with one artificial variable for each row, 875-910. *)
Definition sub_row (r s : list Qc) : list Qc := map (fun p => (fst p - snd p)%Qc) (combine r s).
Definition artificial (s : std) : tab :=
  let m := length (s_rows s) in
  let cost := fold_left sub_row (s_rows s) (repeat q0 (S (s_ncol s))) ++ repeat q0 m in
  Tab m (s_ncol s + m) (s_eps s) (seq 0 (S m))
      (cost :: map (fun p => snd p ++ map (fun k => if k =? fst p then q1 else q0) (seq 0 m))
                   (combine (seq 0 m) (s_rows s)))
      (s_unres s) (s_vars s).

(* 922-932: the columns of the artificial variables are given up.  (Row numbers beyond nrow are not
   used any more, so the pointers may be numbered afresh.) *)
Definition cut_artificial (m : nat) (t : tab) : tab :=
  let n := ncol t - m in
  Tab (nrow t) n (eps t) (seq 0 (S (nrow t))) (map (fun i => firstn (S n) (row t i)) (seq 0 (S (nrow t)))) (unres t) (vars t).

Definition FindBfs (fuel : nat) (s : std) : res (option tab) :=
  let t := artificial s in
  do (t1, ub) <- simplex fuel true t ;;
  if ub : bool then Die
  else if qeq (get t1 0 0) q0 then do t2 <- drive_out t1 ;; Ok (Some (cut_artificial (nrow t1) t2))
  else Ok None.

(* add_row, 564-589. *)
Definition add_row (t : tab) (d : list Qc) : tab :=
  Tab (S (nrow t)) (ncol t) (eps t) (seq 0 (S (S (nrow t)))) (map (row t) (seq 0 (S (nrow t))) ++ [d]) (unres t) (vars t).
Definition with_unres (t : tab) (u : list (list Qc)) : tab :=
  Tab (nrow t) (ncol t) (eps t) (ptr t) (mem t) u (vars t).
Definition set_row (t : tab) (i : nat) (c : list Qc) : tab := with_mem t (upd (nth i (ptr t) 0) c (mem t)).

(* find_slack, 966-979, in a row; epsilon has a column when this is called. *)
Definition eps_col (t : tab) : nat := match eps t with Some e => e | None => 0 end.
Definition find_slack (c : list Qc) (t : tab) : option nat :=
  find (fun j => negb (qeq (nth j c q0) q0)) (seq (S (eps_col t)) (ncol t - eps_col t)).

(* The change of a row to "greater than", 1050-1059 and 395-404.  None: no slack is found and
   cols[-1] is written. *)
Definition flip_row (t : tab) (c : list Qc) : option (list Qc) :=
  match find_slack c t with
  | Some spos => Some (negate_row (upd (eps_col t) qm1 (upd spos qm1 c)))
  | None => None
  end.

(* removeRowFromUnresolved, 591-613: the last takes the place of the i-th (from 0). *)
Definition remove_unres (i : nat) (u : list (list Qc)) : list (list Qc) :=
  removelast (upd i (last u []) u).

(* addNE, 1027-1071. *)
Fixpoint addNE_loop (k ii : nat) (t : tab) : res tab :=
  match k with
  | 0 => Ok t
  | S k' =>
      let d := diagonalize t (nth ii (unres t) []) in
      if qeq (nth 0 d q0) q0 then addNE_loop k' (S ii) t
      else if qlt q0 (nth 0 d q0) then addNE_loop k' ii (with_unres (add_row t d) (remove_unres ii (unres t)))
      else match flip_row t d with
           | Some d' => addNE_loop k' ii (with_unres (add_row t d') (remove_unres ii (unres t)))
           | None => Undef
           end
  end.
Definition addNE (t : tab) : res tab := addNE_loop (length (unres t)) 0 t.

(* strict_ineq, 982-996. *)
Definition strict_ineq (t : tab) : bool :=
  match eps t with
  | None => false
  | Some e => existsb (fun i => negb (qeq (get t i e) q0)) (seq 1 (nrow t))
  end.

(* is_feasible, 1073-1093. *)
Definition is_feasible (t : tab) (ub : bool) : bool :=
  if qlt q0 (get t 0 0) || ub then true
  else if qeq (get t 0 0) q0 && negb ub then false
  else existsb (fun i => qlt q0 (get t i 0)) (seq 1 (nrow t)).

(* rows[0].cols[eps] = -1, as in 1102-1103 *)
Definition cost_eps (t : tab) : tab := set_row t 0 (upd (eps_col t) qm1 (row t 0)).

(* solveStrictIneq, 1095-1113. *)
Definition solveStrictIneq (fuel : nat) (t : tab) : res (option tab) :=
  do (t', ub) <- simplex fuel false (cost_eps t) ;;
  if is_feasible t' ub then Ok (Some t') else Ok None.

(* The loop over the unresolved rows in lp_solution, 368-415. *)
Fixpoint resolve (fuel k : nat) (t : tab) : res (option tab) :=
  match k with
  | 0 => Ok (Some t)
  | S k' =>
      let d := diagonalize t (last (unres t) []) in
      let t1 := cost_eps (with_unres (add_row t d) (removelast (unres t))) in
      do (t2, ub) <- simplex fuel false t1 ;;
      if is_feasible t2 ub then resolve fuel k' t2
      else
        match flip_row t1 (row t1 (nrow t1)) with
        | None => Undef
        | Some c =>
            do (t3, ub3) <- simplex fuel false (cost_eps (set_row t1 (nrow t1) c)) ;;
            if is_feasible t3 ub3 then resolve fuel k' t3 else Ok None
        end
  end.

(* bfs, 937-963. *)
Definition bfs (t : tab) (n : nat) : list Qc :=
  let basis := find_basis t in
  fold_left (fun s j =>
    let l := nth j (vars t) 0%Z in let i := nth j basis 0 in
    if negb (l =? 0)%Z && (0 <? i) then
      let k := Z.to_nat (Z.abs l - 1) in upd k (nth k s q0 + get t i 0)%Qc s
    else s)
  (seq 1 (ncol t)) (repeat q0 n).

(* lp_solution, 313-425, for n variables. *)
Definition lp_solution (fuel n : nat) (rows : list lrow) : res (option (list Qc)) :=
  if n =? 0 then Ok None
  else
    do o <- lp_StandardTableau n rows ;;
    match o with
    | None => Ok None
    | Some None => Ok (Some (repeat q0 n))
    | Some (Some s) =>
        do o1 <- FindBfs fuel s ;;
        match o1 with
        | None => Ok None
        | Some t1 =>
            do t2 <- addNE t1 ;;
            do o3 <- (if strict_ineq t2 then solveStrictIneq fuel t2 else Ok (Some t2)) ;;
            match o3 with
            | None => Ok None
            | Some t3 =>
                do o4 <- resolve fuel (length (unres t3)) t3 ;;
                match o4 with None => Ok None | Some t4 => Ok (Some (bfs t4 n)) end
            end
        end
    end.

(* zero_column, 998-1024: rat_cmp(0, cols[0]) & rel *)
Definition holds_zero (r : lrow) : bool :=
  let b := nth 0 (l_cols r) q0 in
  match l_rel r with
  | EQ => qeq q0 b | LT => qlt q0 b | GT => qlt b q0
  | LE => qlt q0 b || qeq q0 b | GE => qlt b q0 || qeq q0 b | NE => qlt q0 b || qlt b q0
  | COST => false
  end.

(* lp_feasible, 219-231. *)
Definition lp_feasible (fuel n : nat) (rows : list lrow) : res bool :=
  if n =? 0 then Ok (forallb holds_zero rows)
  else do o <- lp_solution fuel n rows ;; Ok (match o with Some _ => true | None => false end).

(* LP_feasible and LP_solution, 145-207 and 233-310: the checks on the list; None is a failure
   (an exception of fl).  The result of LPsol is a list of pairs, empty for no solution. *)
Definition columns (l : list (list Z * (string * Z))) : option nat :=
  match l with
  | [] => None
  | e :: r =>
      let n := length (fst e) in
      if forallb (fun e' => length (fst e') =? n) r then Some n else None
  end.

Definition LP (fuel : nat) (l : list (list Z * (string * Z))) : res (option bool) :=
  match columns l with
  | None => Ok None
  | Some n => do b <- lp_feasible fuel n (map mk_lrow l) ;; Ok (Some b)
  end.

Definition LPsol (fuel : nat) (l : list (list Z * (string * Z))) : res (option (list (Z * Z))) :=
  match columns l with
  | None => Ok None
  | Some n =>
      do o <- lp_solution fuel n (map mk_lrow l) ;;
      Ok (Some (match o with Some s => map (fun q => (Qnum (this q), Zpos (Qden (this q)))) s | None => [] end))
  end.

