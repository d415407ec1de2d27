(* Model of the regression, the corrections and the standard errors of
   pytwoway/fecontrol.py (FEControlEstimator) over an arbitrary real field; the
   columns of the matrix A are those of FECtlModel.v.

   Solvers (AMG, CG, ...) are a parameter, np.sqrt is the parameter [sq].  What is
   drawn by rng is an argument. *)
Set Warnings "-notation-overridden,-ambiguous-paths".
From mathcomp Require Import all_ssreflect all_algebra.
From Verif Require Base.
From Verif Require Import FEModel FECtlModel.

Set Implicit Arguments.
Unset Strict Implicit.
Unset Printing Implicit Defensive.

Import GRing.Theory Num.Theory.
Local Open Scope ring_scope.

Section Reg.
Variable F : realFieldType.
Variable sq : F -> F.                                     (* np.sqrt *)
Variable N : eqType.
Variables npsi nalpha : N.
Variable d : cdata F N.
Local Notation nn := (c_nn d).
Local Notation k := (n_cov npsi nalpha d).
Variable solver : 'M[F]_k -> 'cV[F]_k -> 'cV[F]_k.

(* fecontrol.py:524-559  A as a matrix. *)
Definition A_mx : 'M[F]_(nn, k) := \matrix_(r, c) nth 0 (A_row npsi nalpha d r) c.

(* fecontrol.py:561-582  Dp, DpA, sqrt_DpA.  Unweighted data use the number 1 and
   A itself. *)
Definition rDp (r : 'I_nn) : F := if c_w d is Some w then w r else 1.
Definition wA (m : wmode) : 'M[F]_(nn, k) :=
  match c_w d, m with
  | Some w, Wyes => dxm (fun r : 'I_nn => w r) A_mx
  | Some w, Wsqrt => dxm (fun r : 'I_nn => sq (w r)) A_mx
  | _, _ => A_mx
  end.

(* fecontrol.py:585. *)
Definition AtDpA : 'M[F]_k := A_mx^T *m wA Wyes.

(* fecontrol.py:1300-1395  _mult_A, _mult_Atranspose, _mult_AAinv, _solve, _proj. *)
Definition r_mult_A (v : 'cV[F]_k) (m : wmode) : 'cV[F]_nn := wA m *m v.
Definition r_mult_At (v : 'cV[F]_nn) (m : wmode) : 'cV[F]_k := (wA m)^T *m v.
Definition r_AAinv (v : 'cV[F]_k) : 'cV[F]_k := solver AtDpA v.
Definition r_solve (Y : 'cV[F]_nn) (m : wmode) : 'cV[F]_k := r_AAinv (r_mult_At Y m).
Definition r_proj (Y : 'cV[F]_nn) (m0 m2 : wmode) : 'cV[F]_nn := r_mult_A (r_solve Y m2) m0.

(* fecontrol.py:737  gamma_hat. *)
Definition gamma_hat (Y : 'cV[F]_nn) : 'cV[F]_k := r_solve Y Wyes.
(* A coefficient vector as the list FECtlModel.v works with. *)
Definition vlist (v : 'cV[F]_k) : seq F := [seq v i 0 | i <- enum 'I_k].

(* fecontrol.py:851-858  residuals and plug-in sigma^2. *)
Definition r_resid (Y : 'cV[F]_nn) : 'cV[F]_nn := Y - r_mult_A (gamma_hat Y) Wno.
Definition r_sigma_2_fe (Y : 'cV[F]_nn) : F :=
  weighted_mean (\col_r (rDp r * r_resid Y r 0 ^+ 2)) (c_wopt d).

(* fecontrol.py:899-934  plug-in variance and covariance of named covariates. *)
Definition r_var (names : seq N) (Y : 'cV[F]_nn) : Base.res F :=
  ctl_var_fe npsi nalpha d names (vlist (gamma_hat Y)).
Definition r_cov (names1 names2 : seq N) (Y : 'cV[F]_nn) : Base.res F :=
  ctl_cov_fe npsi nalpha d sq names1 names2 (vlist (gamma_hat Y)).

(* fecontrol.py:936-945, 1294-1298  analytical trace.  np.linalg.inv refuses a
   singular matrix (over exact numbers). *)
Definition r_exact_trace_sigma : Base.res F :=
  if AtDpA \in unitmx then Base.Ok (sum_diag_prod (A_mx^T *m A_mx) (invmx AtDpA))
  else Base.Err Base.LinAlgError.
(* fecontrol.py:970-981  one Hutchinson draw. *)
Definition r_trace_sigma_draw (Z : 'cV[F]_nn) : F :=
  (Z^T *m r_mult_A (r_solve Z Wno) Wno) 0 0.

(* fecontrol.py:1010-1022.  [tr] is the mean of tr_sigma_ho_all. *)
Definition r_mean_E2 (Y : 'cV[F]_nn) : F := (\sum_r r_resid Y r 0 ^+ 2) / nn%:R.
Definition r_sigma_2_ho (tr : F) (Y : 'cV[F]_nn) : F :=
  match c_w d with
  | Some w => (nn%:R * r_mean_E2 Y) / (\sum_(r < nn) 1 / w r - tr)
  | None => (nn%:R * r_sigma_2_fe Y) / (nn%:R - k%:R)
  end.

(* fecontrol.py:1051-1077 and 1135-1155  the weighted covariance of Ql Z1 and
   Qr Z2; a variance has the same names twice. *)
Definition r_trace_term (names1 names2 : seq N) (Z1 Z2 : 'cV[F]_k) : Base.res F :=
  match covariate_effect npsi nalpha d names1 (vlist Z1), covariate_effect npsi nalpha d names2 (vlist Z2) with
  | Base.Ok f1, Base.Ok f2 =>
      Base.Ok (weighted_cov sq (as_col d f1) (as_col d f2) (c_wopt d) (c_wopt d))
  | Base.Err e, _ => Base.Err e
  | _, Base.Err e => Base.Err e
  end.
Definition r_trace_ho_draw (names1 names2 : seq N) (Z : 'cV[F]_k) : Base.res F :=
  r_trace_term names1 names2 Z (r_AAinv Z).
(* fecontrol.py:1115-1128. *)
Definition r_trace_he_draw (names1 names2 : seq N) (Sii : 'I_nn -> F) (Z : 'cV[F]_k) : Base.res F :=
  r_trace_term names1 names2 Z
    (r_AAinv (r_mult_At (\col_r (Sii r * r_mult_A (r_AAinv Z) Wyes r 0)) Wyes)).

(* fecontrol.py:1398-1430 and 1620-1640 as in FEModel.v; here one draw of
   _leverage_approx (1642-1672) and one term of Sii (1548-1557). *)
Definition r_leverage_draw (R2 : 'cV[F]_nn) (r : 'I_nn) : F :=
  r_proj R2 Wsqrt Wsqrt r 0 ^+ 2.
Definition r_Y_bar (Y : 'cV[F]_nn) : F := (\sum_r rDp r * Y r 0) / \sum_r rDp r.
Definition r_Sii_term (P : 'I_nn -> F) (Y : 'cV[F]_nn) (r : 'I_nn) : F :=
  (Y r 0 - r_Y_bar Y) * (r_resid Y r 0 / (1 - P r)).

(* fecontrol.py:780-842 _estimate_clustered_se.  For a column: the first of its
   column numbers, the unit vector, and the number under the square root. *)
Definition se_col (col : N) : Base.res nat :=
  match dget (cov_indices npsi nalpha d) col with
  | Base.Ok ab => Base.Ok ab.1
  | Base.Err e => Base.Err e
  end.
Definition unit_vec (c : nat) : 'cV[F]_k := \col_i (val i == c)%:R.
Definition on_rows (v : 'cV[F]_nn) (r : nat) : F := if insub r is Some i then v i 0 else 0.
Definition se_square (col : N) (clusters : seq N) (Y : 'cV[F]_nn) : Base.res F :=
  match se_col col with
  | Base.Err e => Base.Err e
  | Base.Ok c =>
      let v := unit_vec c in
      if clusters is [::] then
        Base.Ok match c_w d with
        | Some _ => r_mean_E2 Y * \sum_r (A_mx *m r_AAinv v) r 0 ^+ 2
        | None => r_sigma_2_fe Y * \sum_(i | val i == c) r_AAinv v i 0
        end
      else clustered_var npsi nalpha d clusters (on_rows (r_resid Y)) (on_rows (A_mx *m r_AAinv v))
  end.

End Reg.
