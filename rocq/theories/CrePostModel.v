(* The posterior variance of the CRE estimator: pytwoway/cre.py, lines 509-569.
   Matrices over an arbitrary real field F.  [nf] firms, [mn] movers (rows of
   jdata), [nnq] rows of the cross section with a firm.  The linear solver
   [rss(M)] (PyAMG's Ruge-Stuben, cre.py:535) is a parameter. *)
Set Warnings "-notation-overridden,-ambiguous-paths".
From mathcomp Require Import all_ssreflect all_algebra.
From Verif Require Base.

Set Implicit Arguments.
Unset Strict Implicit.
Unset Printing Implicit Defensive.

Import GRing.Theory Num.Theory.
Local Open Scope ring_scope.

Section Posterior.
Variable F : realFieldType.
Variables nf mn nnq : nat.

(* The columns of jdata and of the cross section (adata with cs == 1) that are
   used: firms and wages of movers, firms of the cross section. *)
Record post_data := PostData {
  pj1 : 'I_mn -> 'I_nf;
  pj2 : 'I_mn -> 'I_nf;
  py1 : 'I_mn -> F;
  py2 : 'I_mn -> F;
  pjq : 'I_nnq -> 'I_nf
}.

(* csc_matrix((ones, (range, col)), shape): one 1 in each row (cre.py:518-519, 525). *)
Definition selector (n : nat) (col : 'I_n -> 'I_nf) : 'M[F]_(n, nf) :=
  \matrix_(r, k) (col r == k)%:R.

(* cre.py:518-520. *)
Definition Jd (d : post_data) : 'M[F]_(mn, nf) := selector (pj2 d) - selector (pj1 d).
(* cre.py:521. *)
Definition Yd (d : post_data) : 'cV[F]_mn := \col_r (py2 d r - py1 d r).
(* cre.py:526. *)
Definition Jq (d : post_data) : 'M[F]_(nnq, nf) := selector (pjq d).

(* cre.py:534.  Division by a zero variance, which NumPy turns into inf, is
   excluded by the theorems: they assume positive variances. *)
Definition M (d : post_data) (var_psi var_eps : F) : 'M[F]_nf :=
  (1 / var_psi) *: 1%:M + (1 / var_eps) *: ((Jd d)^T *m Jd d).

Variable solve : 'M[F]_nf -> 'cV[F]_nf -> 'cV[F]_nf.

(* cre.py:548-549. *)
Definition v1 (d : post_data) (var_psi var_eps : F) (Mud : 'cV[F]_nf) : 'cV[F]_nf :=
  (1 / var_psi) *: Mud + (1 / var_eps) *: ((Jd d)^T *m Yd d).

Definition np_mean (n : nat) (x : 'cV[F]_n) : F := (\sum_r x r 0) / n%:R.
(* np.var: divides by n. *)
Definition np_var (n : nat) (x : 'cV[F]_n) : F :=
  (\sum_r (x r 0 - np_mean x) ^+ 2) / n%:R.
(* np.cov(x, y)[0][1]: divides by n - 1. *)
Definition np_cov (n : nat) (x y : 'cV[F]_n) : F :=
  (\sum_r (x r 0 - np_mean x) * (y r 0 - np_mean y)) / (n%:R - 1).

(* cre.py:550-551. *)
Definition post_psi (d : post_data) var_psi var_eps Mud : 'cV[F]_nf :=
  solve (M d var_psi var_eps) (v1 d var_psi var_eps Mud).
Definition t1 (d : post_data) var_psi var_eps Mud : F :=
  np_var (Jq d *m post_psi d var_psi var_eps Mud).

(* One pass of the loop, cre.py:560-564, given the drawn Zpsi. *)
Definition tr_draw (d : post_data) (var_psi var_eps : F) (Zpsi : 'cV[F]_nf) : F :=
  np_cov (Jq d *m Zpsi) (Jq d *m solve (M d var_psi var_eps) Zpsi).

(* cre.py:556-567; [Z] are the draws of the loop. *)
Definition posterior_var (d : post_data) (var_psi var_eps : F) (Mud : 'cV[F]_nf)
    (ndraw : nat) (Z : 'I_ndraw -> 'cV[F]_nf) : F :=
  t1 d var_psi var_eps Mud
  + (\sum_r tr_draw d var_psi var_eps (Z r)) / ndraw%:R.

End Posterior.
