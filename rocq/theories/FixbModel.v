(* Model of InteractedBLMEstimator._fit_b_fixed_point
   (pytwoway/blm_interacted.py:469-707): the slopes B of the interacted model as a
   fixed point.

   Reals for floats; data are lists of rows in the order of jdata.  Parameters of
   the model: [sort] for jdata.sort_values('mean_y') (an unstable sort), [nbrs] for
   G.neighborhood(j1, order=2, mindist=2) on the graph of bipartitepandas, [draw]
   for rng.binomial (one draw per pair of firms), [eig] for the eigenvector of
   eigs / np.linalg.eig for the eigenvalue closest to 1 (real part).  Progress bars,
   the temporary columns of jdata and the final sort_rows are left out.  The code
   behind [if False] (681-691) is dead. *)
From Verif Require Import Base.
Local Open Scope R_scope.

Record row := Row { r_i : nat; r_j : nat; r_y : R; r_w : R }.

(* The parameter how_split; other values are refused by ParamsDict. *)
Inductive split := Income | EnterExit.

Section FixB.
Variable weighted : bool.
Variable how : split.
Variable alternative : bool.                              (* alternative_estimator *)
Variable weight_pairs : bool.                             (* weight_firm_pairs *)
Variable sort : (row -> R) -> list row -> list row.
Variable nbrs : nat -> list nat.
Variable draw : nat -> nat -> bool.
Variable eig : (nat -> nat -> R) -> nat -> R.

(* blm_interacted.py:554-559  mean_y: the average wage of the worker of a row. *)
Definition of_worker (jd : list row) (i : nat) : list row := filter (fun r => r_i r =? i) jd.
Definition mean_y (jd : list row) (r : row) : R :=
  let l := of_worker jd (r_i r) in
  if weighted then rsum (map (fun r => r_w r * r_y r) l) / rsum (map r_w l)
  else rsum (map r_y l) / INR (length l).

(* blm_interacted.py:579-588, 595-604  rows of the workers with a row at firm j
   (groupby('i').transform('max') of an indicator). *)
Definition has_row (jd : list row) (j i : nat) : bool :=
  existsb (fun r => (r_i r =? i)%nat && (r_j r =? j)%nat) jd.
Definition workers_at (j : nat) (jd : list row) : list row :=
  filter (fun r => has_row jd j (r_i r)) jd.
(* blm_interacted.py:605-610. *)
Definition rows12 (j1 j2 : nat) (jd : list row) : list row :=
  filter (fun r => (r_j r =? j1)%nat || (r_j r =? j2)%nat) (workers_at j2 (workers_at j1 jd)).
Definition at_firm (j : nat) (l : list row) : list row := filter (fun r => (r_j r =? j)%nat) l.

(* a[np.arange(len(a)) % 2 == 0]. *)
Fixpoint evens {A} (l : list A) : list A :=
  match l with
  | [] => []
  | [a] => [a]
  | a :: _ :: l' => a :: evens l'
  end.

(* a[mask] with a boolean mask; a mask of another length is an IndexError. *)
Fixpoint pick {A} (m : list bool) (l : list A) : list A :=
  match m, l with
  | b :: m', a :: l' => if b then a :: pick m' l' else pick m' l'
  | _, _ => []
  end.
Definition select {A} (m : list bool) (l : list A) : res (list A) :=
  if (length m =? length l)%nat then Ok (pick m l) else Err IndexError.

(* blm_interacted.py:619-632  entering and exiting. *)
Definition masks (j1 j2 : nat) (l l11 : list row) : list bool * list bool :=
  match how with
  | EnterExit =>
      let first := evens l in
      (map (fun r => (r_j r =? j2)%nat) first, map (fun r => (r_j r =? j1)%nat) first)
  | Income =>
      let n := length l11 in
      let halfway := if Nat.even n then Nat.div2 n
                     else (Nat.div2 n + (if draw j1 j2 then 1 else 0))%nat in
      (map (fun k => (k <? halfway)%nat) (range n), map (fun k => (halfway <=? k)%nat) (range n))
  end.

(* blm_interacted.py:636-652  total weight and average wage of a group at a firm. *)
Definition total_w (l : list row) : R := rsum (map r_w l).
Definition avg_y (l : list row) : R :=
  if weighted then rsum (map (fun r => r_w r * r_y r) l) / total_w l
  else rsum (map r_y l) / INR (length l).

(* blm_interacted.py:593-666  what a pair of firms appends to M0_data, M0_row and
   M0_col. *)
Definition pair_entries (jd : list row) (j1 j2 : nat) : res (list (nat * nat * R)) :=
  let l := rows12 j1 j2 jd in
  if (4 <=? length l)%nat then
    let l11 := at_firm j1 l in
    let l22 := at_firm j2 l in
    let '(entering, exiting) := masks j1 j2 l l11 in
    if existsb (fun b => b) entering && existsb (fun b => b) exiting then
      (en1 <- select entering l11 ;;
       en2 <- select entering l22 ;;
       ex1 <- select exiting l11 ;;
       ex2 <- select exiting l22 ;;
       let w1 := if weight_pairs then
                   (if weighted then total_w en1 + total_w ex1 else INR (length l11)) else 1 in
       let w2 := if weight_pairs then
                   (if weighted then total_w en2 + total_w ex2 else INR (length l22)) else 1 in
       let m := w2 * (avg_y ex2 - avg_y en2) in
       Ok [(j1, j2, w1 * (avg_y en1 - avg_y ex1));
           (j2, j1, if alternative then m * -1 else m)])%res
    else Ok []
  else Ok [].

(* blm_interacted.py:576-593  the loops over firms and their neighbours. *)
Definition entries (nf : nat) (jd : list row) : res (list (nat * nat * R)) :=
  for_each (range nf) (fun j1 acc =>
    for_each (nbrs j1) (fun j2 acc =>
      if (j1 <? j2)%nat then (e <- pair_entries jd j1 j2 ;; Ok (acc ++ e))%res else Ok acc) acc) [].

(* blm_interacted.py:673-679  M0 (csc_matrix adds up entries at the same place), S0
   and lhs. *)
Definition M0 (es : list (nat * nat * R)) (a b : nat) : R :=
  rsum (map (fun e => let '(r, c, v) := e in
                      if (r =? a)%nat && (c =? b)%nat then v else 0) es).
Definition S0 (nf : nat) (es : list (nat * nat * R)) (b : nat) : R :=
  let s := - sumn nf (fun a => M0 es a b) in if alternative then s * -1 else s.
Definition lhs (nf : nat) (es : list (nat * nat * R)) (a b : nat) : R :=
  1 / S0 nf es a * M0 es a b.

(* blm_interacted.py:469-707.  [nf] is jdata.n_firms().  csc_matrix refuses ids
   outside its shape. *)
Definition fit_b (no_returns : bool) (nf : nat) (jd : list row) : res (nat -> R) :=
  if negb no_returns then Err ValueError else
  let jd := match how with Income => sort (mean_y jd) jd | EnterExit => jd end in
  (es <- entries nf jd ;;
   if forallb (fun e => let '(r, c, _) := e in (r <? nf)%nat && (c <? nf)%nat) es then
     let evec := eig (lhs nf es) in Ok (fun j => evec j / evec 0%nat)
   else Err ValueError)%res.

End FixB.
