(* Model of InteractedBLMEstimator._fit_a_alpha_fixed_point
   (pytwoway/blm_interacted.py:709-772) over an arbitrary real field.

   Sparse matrices are matrices, arithmetic is exact.  The pyamg solver
   (rss(M).solve) is a parameter.  adata is the record [frame] of FEModel.v; its
   index is 0, 1, ..., nn - 1, as bipartitepandas leaves it, so that the rows of
   the matrices and of Y are the rows of the data. *)
Set Warnings "-notation-overridden,-ambiguous-paths".
From mathcomp Require Import all_ssreflect all_algebra.
From Verif Require Import FEModel.

Set Implicit Arguments.
Unset Strict Implicit.
Unset Printing Implicit Defensive.

Import GRing.Theory Num.Theory.
Local Open Scope ring_scope.

Section Inter.
Variable F : realFieldType.
Variables nn nf1 nw : nat.
Variable d : frame F nn nf1 nw.
Variable B : 'cV[F]_nf1.+1.
Variable solver : 'M[F]_nf1 -> 'cV[F]_nf1 -> 'cV[F]_nf1.

(* blm_interacted.py:729-732  J without the column of the last firm. *)
Definition i_J_full : 'M[F]_(nn, nf1.+1) := \matrix_(r, k) (fj d r == k)%:R.
Definition i_J : 'M[F]_(nn, nf1) := \matrix_(r, k) i_J_full r (lift ord_max k).

(* blm_interacted.py:735  W: B of the firm in the column of the worker. *)
Definition i_W : 'M[F]_(nn, nw) := \matrix_(r, k) (if fi d r == k then B (fj d r) 0 else 0).

(* blm_interacted.py:737-752. *)
Definition i_DpJ : 'M[F]_(nn, nf1) := if fw d is Some w then dxm w i_J else i_J.
Definition i_DpW : 'M[F]_(nn, nw) := if fw d is Some w then dxm w i_W else i_W.

(* blm_interacted.py:755-759.  Dividing by zero is inf in NumPy and 0 here; the
   theorems ask for divisors other than zero. *)
Definition i_Dwinv (k : 'I_nw) : F := (diag_prod i_W^T i_DpW k)^-1.
Definition i_WtDpJ : 'M[F]_(nw, nf1) := i_W^T *m i_DpJ.
Definition i_DwinvWtDpJ : 'M[F]_(nw, nf1) := dxm i_Dwinv i_WtDpJ.

(* blm_interacted.py:762. *)
Definition i_M : 'M[F]_nf1 := i_J^T *m i_DpJ - i_WtDpJ^T *m i_DwinvWtDpJ.

(* blm_interacted.py:765-767. *)
Definition i_A (Y : 'cV[F]_nn) : 'cV[F]_nf1 :=
  solver i_M (i_DpJ^T *m Y - i_DwinvWtDpJ^T *m (i_DpW^T *m Y)).
Definition i_alpha (Y : 'cV[F]_nn) : 'cV[F]_nw :=
  (\col_k (i_Dwinv k * (i_DpW^T *m Y) k 0)) - i_DwinvWtDpJ *m i_A Y.

(* blm_interacted.py:770-772  0 appended for the last firm. *)
Definition i_append0 (A : 'cV[F]_nf1) (j : 'I_nf1.+1) : F :=
  if unlift ord_max j is Some k then A k 0 else 0.
Definition fit_a_alpha (Y : 'cV[F]_nn) : ('I_nf1.+1 -> F) * ('I_nw -> F) :=
  (i_append0 (i_A Y), fun i => i_alpha Y i 0).

End Inter.
