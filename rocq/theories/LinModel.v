(* Model of InteractedBLMEstimator._fit_a_b_linear
   (pytwoway/blm_interacted.py:194-467) for the methods 'linear', 'iv' and 'liml_1'
   without profiling, and of the part of fit that calls it (143-189), over an
   arbitrary real field; methods 'liml_2' and 'hful' are not modelled.

   Sparse matrices are lists of columns; arithmetic is exact.  Parameters:
   [rss_solve] for pyamg, [qp] for solve_qp(RR, -RY), [eigv] for the eigenvector of
   the smallest eigenvalue, [sq] for np.sqrt.  [coarse] is
   a natural number (the code also takes floats). *)
Set Warnings "-notation-overridden,-ambiguous-paths".
From mathcomp Require Import all_ssreflect all_algebra.
From Verif Require Base.

Set Implicit Arguments.
Unset Strict Implicit.
Unset Printing Implicit Defensive.

Import GRing.Theory Num.Theory.
Local Open Scope ring_scope.

Inductive lmethod := MLinear | MIv | MLiml1.
Inductive linstrument := FirmPairs | WorkerIds.

(* The event-study rows of movers; the weight is None for unweighted data. *)
Record edata (F : Type) (n : nat) := EData {
  e_y1 : 'I_n -> F; e_y2 : 'I_n -> F;
  e_j1 : 'I_n -> nat; e_j2 : 'I_n -> nat;
  e_i : 'I_n -> nat;
  e_w : option ('I_n -> F * F)                            (* w1, w2 *)
}.

Record lparams (F : Type) := LParams {
  l_method : lmethod; l_norm : nat;
  l_stat_a : bool; l_stat_b : bool; l_profiling : bool;
  l_instrument : linstrument; l_coarse : nat; l_tik : F
}.

Section Lin.
Variable F : realFieldType.
Variable sq : F -> F.                                     (* np.sqrt *)
Variable rss_solve : forall k, 'M[F]_k -> 'cV[F]_k -> 'cV[F]_k.
Variable qp : forall k, 'M[F]_k -> 'cV[F]_k -> 'cV[F]_k.
Variable eigv : forall k, 'M[F]_k -> 'cV[F]_k.
Variable n : nat.
Variable d : edata F n.
Variables nf nw : nat.                                    (* jdata.n_firms(), n_workers() *)
Variable p : lparams F.

(* blm_interacted.py:235-238. *)
Definition eDp (r : 'I_n) : F := if e_w d is Some w then (w r).1 * (w r).2 else 1.

(* blm_interacted.py:241-245  columns of JJ1, JJ2, YY1, YY2. *)
Definition JJ1 (k : nat) : 'cV[F]_n := \col_r (e_j1 d r == k)%:R.
Definition JJ2 (k : nat) : 'cV[F]_n := \col_r (e_j2 d r == k)%:R.
Definition YY1 (k : nat) : 'cV[F]_n := \col_r (if e_j1 d r == k then e_y1 d r else 0).
Definition YY2 (k : nat) : 'cV[F]_n := \col_r (if e_j2 d r == k then e_y2 d r else 0).

(* A list of columns as a matrix; coefficients as a list. *)
Definition cmx (cs : seq 'cV[F]_n) : 'M[F]_(n, size cs) := \matrix_(r, k) (nth 0 cs k) r 0.
Definition vlst k (v : 'cV[F]_k) : seq F := [seq v i 0 | i <- enum 'I_k].
Definition wmx q (M : 'M[F]_(n, q)) : 'M[F]_(n, q) := \matrix_(r, k) (eDp r * M r k).

(* blm_interacted.py:249-252, 329-332  intercept columns. *)
Definition colsA : seq 'cV[F]_n :=
  if l_stat_a p then [seq JJ1 k - JJ2 k | k <- iota 1 nf.-1]
  else [seq JJ1 k | k <- iota 1 nf.-1] ++ [seq - JJ2 k | k <- iota 0 nf].

(* blm_interacted.py:246-268  method 'linear'. *)
Definition lin_fit : (nat -> F) * (nat -> F) * (nat -> F) * (nat -> F) :=
  let XX := cmx colsA in
  let YY : 'cV[F]_n := \col_r (e_y1 d r - e_y2 d r) in
  let ints := vlst (rss_solve ((wmx XX)^T *m XX) ((wmx XX)^T *m YY)) in
  let A1 := fun j => nth 0 (0 :: take nf.-1 ints) j in
  let A2 := if l_stat_a p then A1 else fun j => nth 0 (take nf (drop nf.-1 ints)) j in
  (A1, A2, fun=> 1, fun=> 1).

(* blm_interacted.py:270-307  the instruments: columns of zeros and ones. *)
Definition ind (f : 'I_n -> nat) (k : nat) : 'cV[F]_n := \col_r (f r == k)%:R.
Definition maxl (f : 'I_n -> nat) : nat := \max_r f r.
Definition nonzero_col (c : 'cV[F]_n) : bool := \sum_r c r 0 != 0.
Definition instruments : Base.res (seq 'cV[F]_n) :=
  match l_instrument p, l_coarse p with
  | FirmPairs, 0%N =>
      Base.Ok [seq c <- [seq ind (fun r => e_j1 d r + nf * e_j2 d r)%N k | k <- iota 0 (nf * nf)]
              | nonzero_col c]
  | WorkerIds, 0%N =>
      (* csc_matrix with shape (ni, nw) *)
      if [forall r, (e_i d r < nw)%N] then Base.Ok [seq ind (e_i d) k | k <- iota 0 nw]
      else Base.Err Base.ValueError
  | FirmPairs, c =>
      let k2 r := (e_j2 d r %/ c)%N in
      let k1 r := (e_j1 d r %/ c)%N in
      Base.Ok [seq c <- [seq ind (fun r => e_j1 d r + nf * k2 r)%N k | k <- iota 0 (nf * (maxl k2).+1)]
                     ++ [seq ind (fun r => e_j2 d r + nf * k1 r)%N k | k <- iota 0 (nf * (maxl k1).+1)]
              | nonzero_col c]
  | WorkerIds, _ => Base.Err Base.UnboundLocalError       (* WW, line 301 *)
  end.

(* blm_interacted.py:325-328  slope columns. *)
Definition colsB : seq 'cV[F]_n :=
  if l_stat_b p then [seq YY2 k - YY1 k | k <- iota 0 nf]
  else [seq - YY1 k | k <- iota 0 nf] ++ [seq YY2 k | k <- iota 0 nf].

(* blm_interacted.py:356-407  method 'iv' up to beta_hat. *)
Definition iv_Y : 'cV[F]_n := - nth 0 colsB (l_norm p).
Definition iv_cols : seq 'cV[F]_n :=
  take (l_norm p) colsB ++ drop (l_norm p).+1 colsB ++ colsA.
Section Iv.
Variable zs : seq 'cV[F]_n.
Let Z := cmx zs.
Let XX := cmx iv_cols.
Let Zw : 'M[F]_(n, size zs) := \matrix_(r, k) (sq (eDp r) * Z r k).      (* DpZZ *)
Let Zinv (k : 'I_(size zs)) : F := (\sum_r (wmx Z) r k * Z r k + l_tik p)^-1.
Let ZZi : 'M[F]_(n, size zs) := \matrix_(r, k) (Zw r k * Zinv k).
Definition iv_RR : 'M[F]_(size iv_cols) := (XX^T *m ZZi) *m (Zw^T *m XX).
Definition iv_RY : 'cV[F]_(size iv_cols) := (XX^T *m ZZi) *m (Zw^T *m iv_Y).
Definition iv_beta : seq F :=
  let b := vlst (qp iv_RR iv_RY) in take (l_norm p) b ++ 1 :: drop (l_norm p) b.
End Iv.

(* blm_interacted.py:336-354  method 'liml_1'.  scipy's inv of a singular matrix
   raises a RuntimeError, here LinAlgError. *)
Section Liml.
Variable zs : seq 'cV[F]_n.
Let Z := cmx zs.
Let XX := cmx (colsB ++ colsA).
Let ZtX := (wmx Z)^T *m XX.
Definition liml_Wx : 'M[F]_(size (colsB ++ colsA)) := (wmx XX)^T *m XX.
Definition liml_Wz : 'M[F]_(size (colsB ++ colsA)) :=
  (\matrix_(i, k) (ZtX k i * (\sum_r (wmx Z) r k * Z r k + l_tik p)^-1)) *m ZtX.
Definition liml_beta : Base.res (seq F) :=
  if liml_Wx \in unitmx then
    let b := vlst (eigv (invmx liml_Wx *m liml_Wz)) in
    Base.Ok [seq x / nth 0 b (l_norm p) | x <- b]
  else Base.Err Base.LinAlgError.
End Liml.

(* blm_interacted.py:451-467  coefficients to parameters. *)
Definition extract (b : seq F) : (nat -> F) * (nat -> F) * (nat -> F) * (nat -> F) :=
  let B1 j := (nth 0 b j)^-1 in
  let idx := nf in
  let B2 := if l_stat_b p then B1 else fun j => (nth 0 b (idx + j)%N)^-1 in
  let idx := if l_stat_b p then idx else (idx + nf)%N in
  let A1 j := nth 0 (0 :: take nf.-1 (drop idx b)) j * B1 j in
  let idx := (idx + nf.-1)%N in
  let A2 := if l_stat_a p then fun j => A1 j * (B2 j / B1 j)
            else fun j => nth 0 b (idx + j)%N * B2 j in
  (A1, A2, B1, B2).

(* blm_interacted.py:194-467.  Firm ids outside the shape of JJ1 and JJ2 and a
   norm_fid outside X1 raise. *)
Definition fit_a_b : Base.res ((nat -> F) * (nat -> F) * (nat -> F) * (nat -> F)) :=
  if l_stat_b p && l_profiling p then Base.Err Base.ValueError else
  if l_stat_b p && (if l_method p is MLinear then true else false) then Base.Err Base.ValueError else
  if l_profiling p && (if l_method p is MLiml1 then false else true) then Base.Err Base.ValueError else
  if l_profiling p then Base.Err Base.NotImplementedError else            (* not modelled *)
  if [exists r, (nf <= e_j1 d r)%N || (nf <= e_j2 d r)%N] then Base.Err Base.ValueError else
  match l_method p with
  | MLinear => Base.Ok lin_fit
  | MIv =>
      Base.bind instruments (fun zs =>
      if (size colsB <= l_norm p)%N then Base.Err Base.IndexError
      else Base.Ok (extract (iv_beta zs)))
  | MLiml1 =>
      Base.bind instruments (fun zs =>
      Base.bind (liml_beta zs) (fun b =>
      if (size (colsB ++ colsA) <= l_norm p)%N then Base.Err Base.IndexError
      else Base.Ok (extract b)))
  end.

(* blm_interacted.py:167-186  worker effects of stayers by firm: one entry for each
   firm with stayers, in the order of the firms (groupby drops the others). *)
Definition stayers_alpha m (sd : edata F m) (A1 A2 B1 B2 : nat -> F) : seq F :=
  let a r := (e_y1 sd r - A1 (e_j1 sd r)) / B1 (e_j1 sd r) + (e_y2 sd r - A2 (e_j2 sd r)) / B2 (e_j2 sd r) in
  let firms := [seq j <- iota 0 (\max_r e_j1 sd r).+1 | [exists r, e_j1 sd r == j]] in
  let mean j :=
    if e_w sd is Some w then
      (\sum_(r | e_j1 sd r == j) a r * ((w r).1 * (w r).2))
      / (\sum_(r | e_j1 sd r == j) (w r).1 * (w r).2)
    else (\sum_(r | e_j1 sd r == j) a r) / (\sum_(r | e_j1 sd r == j) 1) in
  [seq 2%:R^-1 * mean j | j <- firms].

(* blm_interacted.py:143-192  estimator = 'linear': A, B and alpha; [d] has the
   event study rows of movers and [sd] those of stayers. *)
Definition fit_linear m (sd : edata F m) : Base.res ((nat -> F) * (nat -> F) * seq F) :=
  Base.bind fit_a_b (fun v =>
  let: (A1, A2, B1, B2) := v in
  Base.Ok (A1, B1, stayers_alpha sd A1 A2 B1 B2)).

End Lin.
