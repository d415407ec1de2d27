(* Model of pytwoway/constraints/constraints.py. *)
From Verif Require Import Base UtilModel.
Local Open Scope res_scope.
Local Open Scope R_scope.

(* np.zeros(shape=(r, c)): negative dimensions raise ValueError. *)
Definition zeros (r c : Z) : res dmat :=
  if ((r <? 0) || (c <? 0))%Z then Err ValueError
  else Ok (mkmat (Z.to_nat r) (Z.to_nat c) (fun _ _ => 0)).

(* M[r, c] = v; an index outside the shape raises IndexError.  Indices are
   never negative in the modelled code when a write is reached. *)
Definition aset (r c : nat) (v : R) (m : dmat) : res dmat :=
  if ((r <? nr m) && (c <? nc m))%nat
  then Ok (mkmat (nr m) (nc m)
             (fun i j => if ((i =? r) && (j =? c))%nat then v else ent m i j))
  else Err IndexError.

(* M[r, c] += v *)
Definition aadd (r c : nat) (v : R) (m : dmat) : res dmat :=
  if ((r <? nr m) && (c <? nc m))%nat
  then Ok (mkmat (nr m) (nc m)
             (fun i j => if ((i =? r) && (j =? c))%nat then ent m i j + v else ent m i j))
  else Err IndexError.

(* A constraint dictionary {'G': G, 'h': h, 'A': A, 'b': b}.  Every builder
   returns either (G, h) or (A, b); a missing pair is None. *)
Record cons : Type := mkcons {
  c_G : option (dmat * list R);
  c_A : option (dmat * list R)
}.

(* b = - np.zeros(shape=A.shape[0]);  h = c * np.ones(shape=G.shape[0]) *)
Definition full (n : nat) (v : R) : list R := map (fun _ => v) (range n).

(* The nnt argument: None is range(nt). *)
Definition periods (nnt : option (list nat)) (nt : nat) : list nat :=
  match nnt with None => range nt | Some l => l end.

Definition zn := Z.of_nat.

(* G *= -1 when the flag is set. *)
Definition flip_sign (flag : bool) (m : dmat) : dmat :=
  if flag then scal_mat (-1) m else m.

(* In the loops below nl - 2, nl - 1, nk - 1 and nt - 1 are natural-number
   subtractions.  They differ from Python's only when the result would be
   negative; then range() is empty, no cell is written, and the shift variables
   are not used. *)

(* Linear._get_constraints, constraints.py:215-241 *)
Definition linear_rows (nnt : list nat) (nl nk : nat) (A : dmat) : res dmat :=
  for_each (enumerate nnt) (fun ip A =>
    let '(i, period) := ip in
    ' (A, _, _) <- for_each (range nk) (fun k st =>
      let '(A, row_shift, col_shift) := st in
      A <- for_each (range (nl - 2)) (fun l A =>
        A <- aset (row_shift + l) (col_shift + nk * l) 1 A ;;
        A <- aset (row_shift + l) (col_shift + nk * (l + 1)) (-2) A ;;
        aset (row_shift + l) (col_shift + nk * (l + 2)) 1 A) A ;;
      Ok (A, row_shift + (nl - 2), col_shift + 1)%nat)
      (A, i * (nl - 2) * nk, period * nl * nk)%nat ;;
    Ok A) A.

Definition Linear (nnt : list nat) (nt nl nk : nat) : res cons :=
  A <- zeros (zn (length nnt) * (zn nl - 2) * zn nk) (zn nt * zn nl * zn nk) ;;
  A <- linear_rows nnt nl nk A ;;
  Ok (mkcons None (Some (A, full (nr A) 0))).

(* LinearAdditive._get_constraints, constraints.py:259-296 *)
Definition LinearAdditive (nnt : list nat) (nt nl nk : nat) : res cons :=
  A <- zeros (zn (length nnt) * ((zn nl - 2) * zn nk + (zn nk - 1)))
             (zn nt * zn nl * zn nk) ;;
  A <- linear_rows nnt nl nk A ;;
  A <- for_each (enumerate nnt) (fun ip A =>
    let '(i, period) := ip in
    let row_shift := (length nnt * (nl - 2) * nk + i * (nk - 1))%nat in
    let col_shift := (period * nl * nk)%nat in
    for_each (range (nk - 1)) (fun k A =>
      A <- aset (row_shift + k) (col_shift + k) 1 A ;;
      A <- aset (row_shift + k) (col_shift + nk + k) (-1) A ;;
      A <- aset (row_shift + k) (col_shift + k + 1) (-1) A ;;
      aset (row_shift + k) (col_shift + nk + k + 1) 1 A) A) A ;;
  Ok (mkcons None (Some (A, full (nr A) 0))).

(* Monotonic._get_constraints, constraints.py:313-341 *)
Definition Monotonic (md : R) (increasing : bool) (nt nl nk : nat) : res cons :=
  G <- zeros (zn nt * (zn nl - 1) * zn nk) (zn nt * zn nl * zn nk) ;;
  G <- for_each (range nt) (fun period G =>
    ' (G, _, _) <- for_each (range nk) (fun k st =>
      let '(G, row_shift, col_shift) := st in
      G <- for_each (range (nl - 1)) (fun l G =>
        G <- aset (row_shift + l) (col_shift + nk * l) 1 G ;;
        aset (row_shift + l) (col_shift + nk * (l + 1)) (-1) G) G ;;
      Ok (G, row_shift + (nl - 1), col_shift + 1)%nat)
      (G, period * (nl - 1) * nk, period * nl * nk)%nat ;;
    Ok G) G ;;
  let h := full (nr G) (- md) in
  Ok (mkcons (Some (flip_sign (negb increasing) G, h)) None).

(* MonotonicMean._get_constraints, constraints.py:365-403.  (col_shift is
   computed but never used by the code.) *)
Definition MonotonicMean (md : R) (increasing cross_period_mean : bool)
    (nnt : list nat) (nt nl nk : nat) : res cons :=
  G <- (if cross_period_mean
        then zeros (zn nl - 1) (zn nt * zn nl * zn nk)
        else zeros (zn (length nnt) * (zn nl - 1)) (zn nt * zn nl * zn nk)) ;;
  G <- for_each (enumerate nnt) (fun ip G =>
    let '(i, period) := ip in
    let row_shift := if cross_period_mean then 0%nat else (i * (nl - 1))%nat in
    for_each (range nk) (fun k G =>
      for_each (range (nl - 1)) (fun l G =>
        if cross_period_mean
        then
          G <- aset (row_shift + l) (period * nl * nk + k + l * nk)
                 (1 / (INR (length nnt) * INR nk)) G ;;
          aset (row_shift + l) (period * nl * nk + k + (l + 1) * nk)
                 (- (1 / (INR (length nnt) * INR nk))) G
        else
          G <- aset (row_shift + l) (period * nl * nk + k + l * nk) (1 / INR nk) G ;;
          aset (row_shift + l) (period * nl * nk + k + (l + 1) * nk)
                 (- (1 / INR nk)) G) G) G) G ;;
  let h := full (nr G) (- md) in
  Ok (mkcons (Some (flip_sign (negb increasing) G, h)) None).

(* M[r, t, l, k] = v for a 4-D array of shape (rows, nt, nl, nk), kept in its
   C-order reshape (rows, nt*nl*nk): np.reshape (constraints.py:466-469) is the
   identity on this representation. *)
Definition aset4 (nt nl nk : nat) (r t l k : nat) (v : R) (m : dmat) : res dmat :=
  if ((t <? nt) && (l <? nl) && (k <? nk))%nat
  then aset r (t * nl * nk + l * nk + k) v m
  else Err IndexError.

(* MinFirmType._get_constraints, constraints.py:429-476 *)
Definition MinFirmType (min_firm_type : nat) (md : R) (is_min cross_period_mean : bool)
    (nnt : list nat) (nt nl nk : nat) : res cons :=
  G <- (if cross_period_mean
        then zeros (zn nk - 1) (zn nt * zn nl * zn nk)
        else zeros (zn (length nnt) * (zn nk - 1)) (zn nt * zn nl * zn nk)) ;;
  G <- for_each (enumerate nnt) (fun ip G =>
    let '(i, period) := ip in
    let row_shift := if cross_period_mean then 0%nat else (i * (nk - 1))%nat in
    for_each (range nl) (fun l G =>
      for_each (enumerate (range min_firm_type ++ range2 (min_firm_type + 1) nk))
        (fun jk G =>
          let '(j, k) := jk in
          if cross_period_mean
          then
            G <- aset4 nt nl nk (row_shift + j) period l min_firm_type
                   (1 / (INR (length nnt) * INR nl)) G ;;
            aset4 nt nl nk (row_shift + j) period l k
                   (- (1 / (INR (length nnt) * INR nl))) G
          else
            G <- aset4 nt nl nk (row_shift + j) period l min_firm_type
                   (1 / INR nl) G ;;
            aset4 nt nl nk (row_shift + j) period l k (- (1 / INR nl)) G) G) G) G ;;
  let h := full (nr G) (- md) in
  Ok (mkcons (Some (flip_sign (negb is_min) G, h)) None).

(* NoWorkerTypeInteraction._get_constraints, constraints.py:494-519 *)
Definition NoWorkerTypeInteraction (nnt : list nat) (nt nl nk : nat) : res cons :=
  A <- zeros (zn (length nnt) * (zn nl - 1) * zn nk) (zn nt * zn nl * zn nk) ;;
  A <- for_each (enumerate nnt) (fun ip A =>
    let '(i, period) := ip in
    ' (A, _, _) <- for_each (range nk) (fun k st =>
      let '(A, row_shift, col_shift) := st in
      A <- for_each (range (nl - 1)) (fun l A =>
        A <- aset (row_shift + l) (col_shift + nk * l) 1 A ;;
        aset (row_shift + l) (col_shift + nk * (l + 1)) (-1) A) A ;;
      Ok (A, row_shift + (nl - 1), col_shift + 1)%nat)
      (A, i * (nl - 1) * nk, period * nl * nk)%nat ;;
    Ok A) A ;;
  Ok (mkcons None (Some (A, full (nr A) 0))).

(* NormalizeLowest._get_constraints, constraints.py:541-565 *)
Definition NormalizeLowest (min_firm_type : nat) (cross_period_normalize : bool)
    (nnt : list nat) (nt nl nk : nat) : res cons :=
  A <- (if cross_period_normalize
        then zeros 1 (zn nt * zn nl * zn nk)
        else zeros (zn (length nnt)) (zn nt * zn nl * zn nk)) ;;
  A <- for_each (enumerate nnt) (fun ip A =>
    let '(i, period) := ip in
    if cross_period_normalize
    then aset 0 (period * nl * nk + min_firm_type) (1 / INR (length nnt)) A
    else aset i (period * nl * nk + min_firm_type) 1 A) A ;;
  Ok (mkcons None (Some (A, full (nr A) 0))).

(* NormalizeAll._get_constraints, constraints.py:587-612 *)
Definition NormalizeAll (min_firm_type : nat) (cross_period_normalize : bool)
    (nnt : list nat) (nt nl nk : nat) : res cons :=
  A <- (if cross_period_normalize
        then zeros (zn nl) (zn nt * zn nl * zn nk)
        else zeros (zn (length nnt) * zn nl) (zn nt * zn nl * zn nk)) ;;
  A <- for_each (enumerate nnt) (fun ip A =>
    let '(i, period) := ip in
    for_each (range nl) (fun l A =>
      if cross_period_normalize
      then aset l (period * nl * nk + l * nk + min_firm_type) (1 / INR (length nnt)) A
      else aset (i * nl + l) (period * nl * nk + l * nk + min_firm_type) 1 A) A) A ;;
  Ok (mkcons None (Some (A, full (nr A) 0))).

(* Stationary, constraints.py:623-657 (constructor check included). *)
Definition Stationary (nwt : Z) (nt nl nk : nat) : res cons :=
  if ((nwt <? -1) || (nwt =? 0))%Z then Err NotImplementedError else
  let nl_adj := if (nwt =? -1)%Z then nl else Nat.min nl (Z.to_nat nwt) in
  A <- zeros ((zn nt - 1) * zn nl_adj * zn nk) (zn nt * zn nl * zn nk) ;;
  A <- for_each (range (nt - 1)) (fun period A =>
    let col_shift := (period * nl * nk)%nat in
    ' (A, _) <- for_each (range nk) (fun k st =>
      let '(A, row_shift) := st in
      A <- for_each (range nl_adj) (fun l A =>
        A <- aset (row_shift + k + l) (col_shift + nl * k + l) 1 A ;;
        aset (row_shift + k + l) (col_shift + nl * nk + nl * k + l) (-1) A) A ;;
      Ok (A, row_shift + (nl_adj - 1))%nat)
      (A, period * nl_adj * nk)%nat ;;
    Ok A) A ;;
  Ok (mkcons None (Some (A, full (nr A) 0))).

(* StationaryFirmTypeVariation._get_constraints, constraints.py:675-707 *)
Definition StationaryFirmTypeVariation (nnt : list nat) (nt nl nk : nat) : res cons :=
  A <- zeros (zn (length nnt) * zn nl * zn nk) (zn nt * zn nl * zn nk) ;;
  A <- for_each (enumerate nnt) (fun ip A =>
    let '(i, period) := ip in
    ' (A, _, _) <- for_each (range nl) (fun l st =>
      let '(A, row_shift, col_shift) := st in
      A <- for_each (range nk) (fun k1 A =>
        A <- for_each (range nk) (fun k2 A =>
          A <- aset (row_shift + k1) ((col_shift - period * nl * nk) + k2)
                 (- (1 / INR nk)) A ;;
          aset (row_shift + k1) (col_shift + k2) (1 / INR nk) A) A ;;
        A <- aadd (row_shift + k1) ((col_shift - period * nl * nk) + k1) 1 A ;;
        aadd (row_shift + k1) (col_shift + k1) (-1) A) A ;;
      Ok (A, row_shift + nk, col_shift + nk)%nat)
      (A, i * nl * nk, period * nl * nk)%nat ;;
    Ok A) A ;;
  Ok (mkcons None (Some (A, full (nr A) 0))).

(* The default nnt of StationaryFirmTypeVariation: None is range(1, nt). *)
Definition periods1 (nnt : option (list nat)) (nt : nat) : list nat :=
  match nnt with None => range2 1 nt | Some l => l end.

(* np.eye *)
Definition eye (n : nat) : dmat := mkmat n n (fun i j => if (i =? j)%nat then 1 else 0).

(* BoundedBelow, BoundedAbove._get_constraints, constraints.py:722-737, 752-767 *)
Definition BoundedBelow (lb : R) (nt nl nk : nat) : res cons :=
  let n := (nt * nl * nk)%nat in
  Ok (mkcons (Some (scal_mat (-1) (eye n), full n (- lb))) None).
Definition BoundedAbove (ub : R) (nt nl nk : nat) : res cons :=
  let n := (nt * nl * nk)%nat in
  Ok (mkcons (Some (eye n, full n ub)) None).

(* ------------------------------------------------------------------ *)
(* Constraint objects as passed to add_constraints. *)
Inductive cobj : Type :=
| CLinear (nnt : option (list nat)) (nt : nat)
| CLinearAdditive (nnt : option (list nat)) (nt : nat)
| CMonotonic (md : R) (increasing : bool) (nt : nat)
| CMonotonicMean (md : R) (increasing cross : bool) (nnt : option (list nat)) (nt : nat)
| CMinFirmType (k0 : nat) (md : R) (is_min cross : bool) (nnt : option (list nat)) (nt : nat)
| CNoWorkerTypeInteraction (nnt : option (list nat)) (nt : nat)
| CNormalizeLowest (k0 : nat) (cross : bool) (nnt : option (list nat)) (nt : nat)
| CNormalizeAll (k0 : nat) (cross : bool) (nnt : option (list nat)) (nt : nat)
| CStationary (nwt : Z) (nt : nat)
| CStationaryFirmTypeVariation (nnt : option (list nat)) (nt : nat)
| CBoundedBelow (lb : R) (nt : nat)
| CBoundedAbove (ub : R) (nt : nat).

(* constraint._get_constraints(nl=nl, nk=nk) *)
Definition get_constraints (c : cobj) (nl nk : nat) : res cons :=
  match c with
  | CLinear nnt nt => Linear (periods nnt nt) nt nl nk
  | CLinearAdditive nnt nt => LinearAdditive (periods nnt nt) nt nl nk
  | CMonotonic md inc nt => Monotonic md inc nt nl nk
  | CMonotonicMean md inc cr nnt nt => MonotonicMean md inc cr (periods nnt nt) nt nl nk
  | CMinFirmType k0 md mn cr nnt nt => MinFirmType k0 md mn cr (periods nnt nt) nt nl nk
  | CNoWorkerTypeInteraction nnt nt => NoWorkerTypeInteraction (periods nnt nt) nt nl nk
  | CNormalizeLowest k0 cr nnt nt => NormalizeLowest k0 cr (periods nnt nt) nt nl nk
  | CNormalizeAll k0 cr nnt nt => NormalizeAll k0 cr (periods nnt nt) nt nl nk
  | CStationary nwt nt => Stationary nwt nt nl nk
  | CStationaryFirmTypeVariation nnt nt =>
      StationaryFirmTypeVariation (periods1 nnt nt) nt nl nk
  | CBoundedBelow lb nt => BoundedBelow lb nt nl nk
  | CBoundedAbove ub nt => BoundedAbove ub nt nl nk
  end.

(* ------------------------------------------------------------------ *)
(* QPConstrained.  An array attribute is a 1-D array (np.array([]) initially,
   np.zeros(l + r) after padding an empty one), a 2-D array, or a scipy sparse
   matrix. *)
Inductive arr : Type :=
| Arr1 (l : list R)
| Arr2 (m : dmat)
| ArrSp (m : dmat).

Record qp : Type := mkqp {
  q_nl : nat; q_nk : nat;
  q_G : arr; q_h : list R;
  q_A : arr; q_b : list R
}.

(* QPConstrained.__init__, constraints.py:32-44 *)
Definition qp_init (nl nk : nat) : qp := mkqp nl nk (Arr1 []) [] (Arr1 []) [].

(* len(array): sparse matrices raise TypeError. *)
Definition arr_len (a : arr) : res nat :=
  match a with
  | Arr1 l => Ok (length l)
  | Arr2 m => Ok (nr m)
  | ArrSp _ => Err TypeError
  end.

(* array.shape[0] *)
Definition arr_rows (a : arr) : nat :=
  match a with Arr1 l => length l | Arr2 m => nr m | ArrSp m => nr m end.

(* np.concatenate((m1, m2), axis=0) of 2-D arrays *)
Definition vstack (m1 m2 : dmat) : res dmat :=
  if (nc m1 =? nc m2)%nat
  then Ok (mkmat (nr m1 + nr m2) (nc m1)
             (fun i j => if (i <? nr m1)%nat then ent m1 i j else ent m2 (i - nr m1) j))
  else Err ValueError.

(* np.concatenate((array, m), axis=0): different numbers of dimensions raise
   ValueError.  (A sparse matrix is never reached: len() raised before.) *)
Definition arr_concat (a : arr) (m : dmat) : res arr :=
  match a with
  | Arr2 m1 => rmap Arr2 (vstack m1 m)
  | Arr1 _ => Err ValueError
  | ArrSp _ => Err ValueError
  end.

(* One half of _add_constraint, constraints.py:75-90, for (G, h) or (A, b). *)
Definition add_half (cur : arr) (cur_rhs : list R) (new : option (dmat * list R))
  : res (arr * list R) :=
  match new with
  | None => Ok (cur, cur_rhs)                       (* len(np.array([])) > 0 fails *)
  | Some (m, rhs) =>
      if (0 <? nr m)%nat
      then n <- arr_len cur ;;
           if (0 <? n)%nat
           then a <- arr_concat cur m ;; Ok (a, cur_rhs ++ rhs)
           else Ok (Arr2 m, rhs)
      else Ok (cur, cur_rhs)
  end.

(* _add_constraint, constraints.py:56-90 *)
Definition add_constraint (c : cons) (s : qp) : res qp :=
  ' (G, h) <- add_half (q_G s) (q_h s) (c_G c) ;;
  ' (A, b) <- add_half (q_A s) (q_b s) (c_A c) ;;
  Ok (mkqp (q_nl s) (q_nk s) G h A b).

(* add_constraints, constraints.py:46-54 *)
Definition add_constraints (cs : list cobj) (s : qp) : res qp :=
  for_each cs (fun c s =>
    d <- get_constraints c (q_nl s) (q_nk s) ;; add_constraint d s) s.

(* One half of pad, constraints.py:100-115. *)
Definition pad_half (l r : nat) (a : arr) : res arr :=
  n <- arr_len a ;;
  if (0 <? n)%nat
  then match a with
       | Arr2 m =>
           Ok (Arr2 (mkmat (nr m) (l + nc m + r)
                 (fun i j => if (j <? l)%nat then 0
                             else if (j <? l + nc m)%nat then ent m i (j - l) else 0)))
       | _ => Err ValueError         (* concatenating 1-D with 2-D arrays *)
       end
  else Ok (Arr1 (map (fun _ => 0) (range (l + r)))).

(* pad, constraints.py:92-115 *)
Definition pad (l r : nat) (s : qp) : res qp :=
  G <- pad_half l r (q_G s) ;;
  A <- pad_half l r (q_A s) ;;
  Ok (mkqp (q_nl s) (q_nk s) G (q_h s) A (q_b s)).

(* clear_constraints, constraints.py:117-130 *)
Definition clear_constraints (inequality equality : bool) (s : qp) : qp :=
  let s := if inequality
           then mkqp (q_nl s) (q_nk s) (Arr1 []) [] (q_A s) (q_b s) else s in
  if equality then mkqp (q_nl s) (q_nk s) (q_G s) (q_h s) (Arr1 []) [] else s.

(* The arguments handed to qpsolvers.solve_qp: the number of unknowns (P is
   p_n by p_n, q has p_n entries; their values are not modelled), (G, h) and
   (A, b). *)
Record problem : Type := mkproblem {
  p_n : nat;
  p_G : option (arr * list R);
  p_A : option (arr * list R)
}.

Definition to_sparse (a : arr) : arr :=
  match a with
  | Arr2 m => if (0 <? nr m)%nat then ArrSp m else a
  | _ => a
  end.

(* solve, constraints.py:166-197: the state afterwards and the problem passed to
   the solver.  [n] is the size of P; [sparse] says whether the solver name is in the sparse list.
   A 1-D array converted by csc_matrix is not modelled further. *)
Definition solve (sparse : bool) (n : nat) (s : qp) : qp * problem :=
  let s := if sparse
           then mkqp (q_nl s) (q_nk s) (to_sparse (q_G s)) (q_h s)
                     (to_sparse (q_A s)) (q_b s)
           else s in
  (s, mkproblem n (if (0 <? arr_rows (q_G s))%nat then Some (q_G s, q_h s) else None)
                (if (0 <? arr_rows (q_A s))%nat then Some (q_A s, q_b s) else None)).

(* check_feasible, constraints.py:132-164: a temporary object gets references to
   the arrays and calls solve with the default (dense) solver and P of size
   nl * nk (M has k = nl * nk columns, lines 142-160), so only the
   temporary object could change.  Returns the unchanged object and the problem
   whose feasibility the solver decides. *)
Definition check_feasible (s : qp) : qp * problem :=
  let cons := mkqp (q_nl s) (q_nk s) (q_G s) (q_h s) (q_A s) (q_b s) in
  let '(cons, pb) := solve false (q_nl s * q_nk s) cons in
  (s, pb).
