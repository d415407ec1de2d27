(* Model of pytwoway/util.py. *)
From Verif Require Import Base.
Local Open Scope res_scope.

(* ------------------------------------------------------------------ *)
(* scramble, util.py:407-424.
   new_lst = []; for i in range(len(lst)): append lst[i // 2] when i is even,
   lst[len(lst) - i // 2 - 1] otherwise.  Indexing is Python's (negative
   indices wrap, out of range raises). *)
Definition scramble {A} (lst : list A) : res (list A) :=
  for_each (range (length lst))
    (fun i new_lst =>
       if i mod 2 =? 0
       then x <- getitem lst (Z.of_nat (i / 2)) ;; Ok (new_lst ++ [x])
       else x <- getitem lst (Z.of_nat (length lst) - Z.of_nat (i / 2) - 1) ;;
            Ok (new_lst ++ [x]))
    [].

(* unscramble, util.py:426-444.
   Even positions go to front_lst, odd positions to back_lst; the result is
   front_lst + reversed(back_lst).  No step can raise. *)
Definition unscramble {A} (lst : list A) : list A :=
  let '(front_lst, back_lst) :=
    fold_left
      (fun (st : list A * list A) (p : nat * A) =>
         let '(front, back) := st in
         let '(i, element) := p in
         if i mod 2 =? 0 then (front ++ [element], back)
         else (front, back ++ [element]))
      (enumerate lst) ([], []) in
  front_lst ++ rev back_lst.

(* ------------------------------------------------------------------ *)
(* The weight argument of the weighted statistics: a float or int (ignored by
   weighted_mean) or an array. *)
Inductive weight : Type :=
| WScalar (c : R)
| WVec (w : list R).

Local Open Scope R_scope.

(* weighted_mean, util.py:10-23.  An empty sample or a zero total weight is
   nan in numpy; here the quotient is Coq's, so theorems assume a non-empty
   sample and a positive total weight. *)
Definition weighted_mean (v : list R) (w : weight) : R :=
  match w with
  | WScalar _ => rsum v / INR (length v)
  | WVec w => rsum (map2 Rmult w v) / rsum w
  end.

(* weighted_var, util.py:25-43. *)
Definition weighted_var (v : list R) (w : weight) (dof : R) : R :=
  let m0 := weighted_mean v w in
  match w with
  | WScalar _ => rsum (map (fun x => (x - m0) ^ 2) v) / (INR (length v) - dof)
  | WVec w =>
      rsum (map2 (fun wi x => wi * (x - m0) ^ 2) w v) / (rsum w - dof)
  end.

(* w1 * w2 with numpy broadcasting of scalars (util.py:66). *)
Definition weight_mul (w1 w2 : weight) : weight :=
  match w1, w2 with
  | WScalar a, WScalar b => WScalar (a * b)
  | WScalar a, WVec w => WVec (map (fun x => a * x) w)
  | WVec w, WScalar b => WVec (map (fun x => x * b) w)
  | WVec u, WVec w => WVec (map2 Rmult u w)
  end.

(* weighted_cov, util.py:45-68. *)
Definition weighted_cov (v1 v2 : list R) (w1 w2 : weight) (dof : R) : R :=
  let m1 := weighted_mean v1 w1 in
  let m2 := weighted_mean v2 w2 in
  match weight_mul w1 w2 with
  | WScalar _ =>
      rsum (map2 (fun x y => (x - m1) * (y - m2)) v1 v2) / (INR (length v1) - dof)
  | WVec w12 =>
      let w3 := map sqrt w12 in
      rsum (map2 Rmult (map2 (fun wi x => wi * (x - m1)) w3 v1)
                       (map (fun y => y - m2) v2))
      / (rsum w3 - dof)
  end.

(* ------------------------------------------------------------------ *)
(* np.cumsum *)
Fixpoint cumsum_from (acc : R) (l : list R) : list R :=
  match l with
  | [] => []
  | x :: l' => (acc + x) :: cumsum_from (acc + x) l'
  end.
Definition cumsum := cumsum_from 0.

(* Fancy indexing values[sorter].  The sorter comes from np.argsort on the same
   array, so its entries are in range; the default is never used then. *)
Definition take (l : list R) (idx : list nat) : list R :=
  map (fun i => nth i l 0) idx.

(* np.interp(x, xp, fp) for one x: fp[0] left of xp[0], fp[-1] right of
   xp[-1], linear in between (numpy's compiled interp: the largest j with
   xp[j] <= x; fp[j] if it is the last or if xp[j] == x). *)
Fixpoint interp_from (x : R) (x0 f0 : R) (rest : list (R * R)) : R :=
  match rest with
  | [] => f0
  | (x1, f1) :: rest' =>
      if Rlt_dec x x1
      then if Req_EM_T x x0 then f0
           else (f1 - f0) / (x1 - x0) * (x - x0) + f0
      else interp_from x x1 f1 rest'
  end.

Definition interp (x : R) (pts : list (R * R)) : res R :=
  match pts with
  | [] => Err ValueError                       (* array of sample points is empty *)
  | (x0, f0) :: rest =>
      Ok (if Rlt_dec x x0 then f0 else interp_from x x0 f0 rest)
  end.

Definition all_in_unit (quantiles : list R) : bool :=
  forallb (fun q => if Rle_dec 0 q then true else false) quantiles
  && forallb (fun q => if Rle_dec q 1 then true else false) quantiles.

(* weighted_quantile, util.py:70-105.  [argsort] stands for np.argsort. *)
Definition weighted_quantile (argsort : list R -> list nat)
    (values quantiles : list R) (sample_weight : option (list R))
    (values_sorted old_style : bool) : res (list R) :=
  let sample_weight :=
    match sample_weight with
    | None => map (fun _ => 1) values
    | Some w => w
    end in
  if negb (all_in_unit quantiles) then Err ValueError else
  let '(values, sample_weight) :=
    if values_sorted then (values, sample_weight)
    else let sorter := argsort values in
         (take values sorter, take sample_weight sorter) in
  let wq := map2 (fun c w => c - / 2 * w) (cumsum sample_weight) sample_weight in
  let wq :=
    if old_style
    then let wq := map (fun q => q - nth 0 wq 0) wq in
         map (fun q => q / last wq 0) wq
    else map (fun q => q / rsum sample_weight) wq in
  traverse (fun q => interp q (combine wq values)) quantiles.

(* ------------------------------------------------------------------ *)
(* Dense matrices: a shape and entries (read only inside the shape). *)
Record dmat : Type := mkmat { nr : nat; nc : nat; ent : nat -> nat -> R }.

Definition transpose (m : dmat) : dmat :=
  mkmat (nc m) (nr m) (fun i j => ent m j i).

(* numpy broadcasting of one axis: equal sizes, or one of them is 1. *)
Definition bdim (a b : nat) : res nat :=
  if a =? b then Ok a else if a =? 1 then Ok b else if b =? 1 then Ok a
  else Err ValueError.
Definition bidx (a i : nat) : nat := if a =? 1 then 0 else i.

(* Elementwise product of 2-D arrays with broadcasting (np.multiply or the times operator). *)
Definition np_multiply (a b : dmat) : res dmat :=
  r <- bdim (nr a) (nr b) ;;
  c <- bdim (nc a) (nc b) ;;
  Ok (mkmat r c (fun i j =>
        ent a (bidx (nr a) i) (bidx (nc a) j)
        * ent b (bidx (nr b) i) (bidx (nc b) j))).

(* A 1-D array takes part in broadcasting as a matrix with one row. *)
Definition row_of (d : list R) : dmat := mkmat 1 (length d) (fun _ j => nth j d 0).

Definition scal_mat (c : R) (m : dmat) : dmat :=
  mkmat (nr m) (nc m) (fun i j => c * ent m i j).

(* The diag argument: a number or an array of diagonal entries. *)
Inductive diagarg : Type :=
| DScalar (c : R)
| DVec (d : list R).

(* DxM, util.py:150-165 *)
Definition DxM (diag : diagarg) (m : dmat) : res dmat :=
  match diag with
  | DScalar c => if Req_EM_T c 1 then Ok m else Ok (scal_mat c m)
  | DVec d => rmap transpose (np_multiply (row_of d) (transpose m))
  end.

(* MxD, util.py:167-182 *)
Definition MxD (m : dmat) (diag : diagarg) : res dmat :=
  match diag with
  | DScalar c => if Req_EM_T c 1 then Ok m else Ok (scal_mat c m)
  | DVec d => np_multiply m (row_of d)
  end.

(* A compressed sparse column matrix: shape, data, row indices, and column
   pointers (scipy.sparse.csc_matrix).  Row indices need not be sorted and may
   repeat. *)
Record csc : Type := mkcsc {
  s_nr : nat; s_nc : nat;
  s_data : list R; s_indices : list nat; s_indptr : list nat
}.

(* DxSP, util.py:107-128; np.take raises when an index is out of range. *)
Definition DxSP (diag : diagarg) (sp : csc) : res csc :=
  match diag with
  | DScalar c =>
      if Req_EM_T c 1 then Ok sp
      else Ok (mkcsc (s_nr sp) (s_nc sp) (map (fun x => c * x) (s_data sp))
                     (s_indices sp) (s_indptr sp))
  | DVec d =>
      taken <- traverse (fun i => getitem d (Z.of_nat i)) (s_indices sp) ;;
      Ok (mkcsc (s_nr sp) (s_nc sp) (map2 Rmult taken (s_data sp))
                (s_indices sp) (s_indptr sp))
  end.

(* The dense matrix a layout stands for: entry (i, j) is the sum of the data
   whose row index is i among positions indptr[j] .. indptr[j+1]-1. *)
Definition dense (sp : csc) : dmat :=
  mkmat (s_nr sp) (s_nc sp)
    (fun i j =>
       let lo := nth j (s_indptr sp) 0%nat in
       let hi := nth (S j) (s_indptr sp) 0%nat in
       rsum (map (fun p => if (nth p (s_indices sp) 0 =? i)%nat
                           then nth p (s_data sp) 0 else 0)
                 (range2 lo hi))).

(* SPxD, util.py:130-148.  sp.multiply(diag) is scipy's elementwise product
   with broadcasting; it is modelled on the dense meaning of sp. *)
Definition SPxD (sp : csc) (diag : diagarg) : res dmat :=
  match diag with
  | DScalar c => if Req_EM_T c 1 then Ok (dense sp) else Ok (scal_mat c (dense sp))
  | DVec d => np_multiply (dense sp) (row_of d)
  end.

(* m[:, :k] *)
Definition first_cols (k : nat) (m : dmat) : dmat :=
  mkmat (nr m) (Nat.min k (nc m)) (ent m).

Definition row_sums (m : dmat) : list R :=
  map (fun i => sumn (nc m) (ent m i)) (range (nr m)).

(* diag_of_prod, util.py:196-206 (and diag_of_sp_prod, 184-194, on the dense
   meaning of its arguments).  The Python recursion is on swapped transposes;
   it carries fuel here. *)
Fixpoint diag_of_prod (fuel : nat) (m1 m2 : dmat) : res (list R) :=
  match fuel with
  | O => Err OutOfFuel
  | S fuel' =>
      if (nc m1 <? nr m2)%nat then diag_of_prod fuel' (transpose m2) (transpose m1)
      else rmap row_sums (np_multiply (first_cols (nr m2) m1) (transpose m2))
  end.

(* ------------------------------------------------------------------ *)
(* logsumexp without torch, util.py:348-370, on one row (axis=1 applies it to
   every row; axis=None to the flattened array).  np.amax of an empty array
   raises. *)
Definition logsumexp (a : list R) : res R :=
  match a with
  | [] => Err ValueError
  | x :: l =>
      let a_max := fold_left Rmax l x in
      let tmp := map (fun y => exp (y - a_max)) a in
      let s := rsum tmp in
      Ok (ln s + a_max)
  end.

(* Posterior probabilities of one row: qi = np.exp(lp.T - lse_lp).T,
   blm.py:1414-1415 and 2033-2034. *)
Definition posterior (lp : list R) : res (list R) :=
  lse <- logsumexp lp ;; Ok (map (fun y => exp (y - lse)) lp).

(* logpi, util.py:372 *)
Definition logpi : R := - (/ 2) * ln (2 * PI).

(* lognormpdf, util.py:374-385, elementwise. *)
Definition lognormpdf (x mu : R) (sd var : option R) : res R :=
  match sd, var with
  | None, None => Err ValueError
  | Some _, Some _ => Err ValueError
  | Some sd, None =>
      let res := logpi - ln sd in
      Ok (res - (x - mu) ^ 2 / (2 * sd ^ 2))
  | None, Some var =>
      let res := logpi - (1 / 2) * ln var in
      Ok (res - (x - mu) ^ 2 / (2 * var))
  end.

(* fast_lognormpdf, util.py:387-393: mu, sd per group; G the group of each
   row. *)
Definition fast_lognormpdf (x mu sd : list R) (G : list nat) : res (list R) :=
  let log_sd := map ln sd in
  let sd_sq := map (fun s => s ^ 2) sd in
  traverse
    (fun p : R * nat =>
       let '(xi, g) := p in
       ls <- getitem log_sd (Z.of_nat g) ;;
       m <- getitem mu (Z.of_nat g) ;;
       v <- getitem sd_sq (Z.of_nat g) ;;
       Ok (logpi - ls - (xi - m) ^ 2 / (2 * v)))
    (combine x G).

(* ------------------------------------------------------------------ *)
(* All index tuples of an array of the given shape in C (row-major) order:
   the order of ndarray.ravel(). *)
Fixpoint cart (shape : list nat) : list (list nat) :=
  match shape with
  | [] => [[]]
  | n :: shape' =>
      flat_map (fun i => map (cons i) (cart shape')) (range n)
  end.

Definition swap01 {A} (l : list A) : list A :=
  match l with
  | a :: b :: l' => b :: a :: l'
  | _ => l
  end.

(* melt, util.py:446-457.  np.meshgrid's default indexing 'xy' returns arrays
   of shape (n1, n0, n2, ...) whose cell (q1, q0, q2, ...) holds q0 in the first
   array, q1 in the second, ...  Each is raveled in C order; the value column
   is a.ravel().  A row is (index columns, value). *)
Definition melt {V} (shape : list nat) (a : list nat -> V)
  : list (list nat * V) :=
  combine (map swap01 (cart (swap01 shape))) (map a (cart shape)).
