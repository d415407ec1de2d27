(* Model of pytwoway/fe.py (FEEstimator) and of the Q options without
   controls in pytwoway/Q/Q.py, over an arbitrary real field.

   Conventions.  NumPy vectors are column vectors; sparse and dense matrices
   are both matrices (util.py's sparse products are shown equal to the dense
   products in UtilProps.v).  Arithmetic is exact.  The number of firms is
   [nf1.+1]; firm 0 is the normalised firm.  The inner linear solver (AMG or a
   SciPy Krylov method, fe.py:1351-1366) and [np.sqrt] are arguments.  Timing,
   logging and progress bars are left out. *)
Set Warnings "-notation-overridden,-ambiguous-paths".
From mathcomp Require Import all_ssreflect all_algebra.
From Verif Require Base.

Set Implicit Arguments.
Unset Strict Implicit.
Unset Printing Implicit Defensive.

Import GRing.Theory Num.Theory.
Local Open Scope ring_scope.

(* The [weighted]/[Dp0]/[Dp2] flags of fe.py:1297-1403: False, True, 'sqrt'. *)
Inductive wmode := Wno | Wyes | Wsqrt.

(* params['Sii_stayers'], fe.py:1641-1718. *)
Inductive stayers_opt := FirmMean | UpperBound.

Section Stats.
Variable F : realFieldType.
Variable sq : F -> F.                                     (* np.sqrt *)

(* A weight argument: the int 1, or a vector (util.py:10-68). *)
Definition wopt (q : nat) := option ('I_q -> F).

(* util.py:10-23 weighted_mean. *)
Definition weighted_mean q (v : 'cV[F]_q) (w : wopt q) : F :=
  match w with
  | None => (\sum_r v r 0) / q%:R
  | Some w => (\sum_r w r * v r 0) / (\sum_r w r)
  end.

(* util.py:25-43 weighted_var, dof = 0 (every call in fe.py). *)
Definition weighted_var q (v : 'cV[F]_q) (w : wopt q) : F :=
  let m0 := weighted_mean v w in
  match w with
  | None => (\sum_r (v r 0 - m0) ^+ 2) / q%:R
  | Some w => (\sum_r w r * (v r 0 - m0) ^+ 2) / (\sum_r w r)
  end.

(* util.py:45-68 weighted_cov, dof = 0.  A scalar weight next to a vector
   weight multiplies it by 1. *)
Definition weighted_cov q (v1 v2 : 'cV[F]_q) (w1 w2 : wopt q) : F :=
  let m1 := weighted_mean v1 w1 in
  let m2 := weighted_mean v2 w2 in
  let prod w3 :=
    (\sum_r sq (w3 r) * (v1 r 0 - m1) * (v2 r 0 - m2)) / (\sum_r sq (w3 r)) in
  match w1, w2 with
  | None, None => (\sum_r (v1 r 0 - m1) * (v2 r 0 - m2)) / q%:R
  | Some w1, None => prod w1
  | None, Some w2 => prod w2
  | Some w1, Some w2 => prod (fun r => w1 r * w2 r)
  end.

(* util.py:107-165 DxSP and DxM with a vector of diagonal entries. *)
Definition dxm p q (d : 'I_p -> F) (M : 'M[F]_(p, q)) : 'M[F]_(p, q) :=
  \matrix_(r, k) (d r * M r k).

(* util.py:130-148 and 167-182 SPxD and MxD with a vector. *)
Definition mxd p q (M : 'M[F]_(p, q)) (d : 'I_q -> F) : 'M[F]_(p, q) :=
  \matrix_(r, k) (M r k * d k).

(* util.py:184-206 diag_of_sp_prod and diag_of_prod on matching shapes
   (m1 is p x q, m2 is q x p): row sums of m1 * m2.T. *)
Definition diag_prod p q (m1 : 'M[F]_(p, q)) (m2 : 'M[F]_(q, p)) : 'I_p -> F :=
  fun r => \sum_k m1 r k * m2^T r k.

(* np.sum(diag_of_prod(m1, m2)). *)
Definition sum_diag_prod p q (m1 : 'M[F]_(p, q)) (m2 : 'M[F]_(q, p)) : F :=
  \sum_r diag_prod m1 m2 r.

End Stats.

Section FE.
Variable F : realFieldType.
Variable sq : F -> F.                                     (* np.sqrt *)
Variables nn nf1 nw : nat.

(* The columns of [adata] that fe.py reads besides y: firm id j, worker id i,
   the weight column (None when the estimator is unweighted, fe.py:200), and
   worker_m (whether the worker of a row is a mover, fe.py:423).
   bipartitepandas guarantees contiguous ids, so that the sparse matrices of
   fe.py:444-450 have ids within their shape. *)
Record frame := Frame {
  fj : 'I_nn -> 'I_nf1.+1;
  fi : 'I_nn -> 'I_nw;
  fw : option ('I_nn -> F);
  fm : 'I_nn -> bool
}.

Variable d : frame.

(* fe.py:443-447  J with the first column (firm 0) dropped. *)
Definition J_full : 'M[F]_(nn, nf1.+1) := \matrix_(r, k) (fj d r == k)%:R.
Definition J_mx : 'M[F]_(nn, nf1) := \matrix_(r, k) J_full r (lift ord0 k).

(* fe.py:450  W. *)
Definition W_mx : 'M[F]_(nn, nw) := \matrix_(r, k) (fi d r == k)%:R.

(* fe.py:455, 469  Dp as seen by code that multiplies by it. *)
Definition Dp (r : 'I_nn) : F := if fw d is Some w then w r else 1.

(* fe.py:452-478  DpJ, DpW, sqrt_DpJ, sqrt_DpW; unweighted data use J and W
   themselves. *)
Definition wJ (m : wmode) : 'M[F]_(nn, nf1) :=
  match fw d, m with
  | Some w, Wyes => dxm w J_mx
  | Some w, Wsqrt => dxm (fun r => sq (w r)) J_mx
  | _, _ => J_mx
  end.
Definition wW (m : wmode) : 'M[F]_(nn, nw) :=
  match fw d, m with
  | Some w, Wyes => dxm w W_mx
  | Some w, Wsqrt => dxm (fun r => sq (w r)) W_mx
  | _, _ => W_mx
  end.

(* fe.py:481  Dwinv = 1 / diag_of_sp_prod(W.T, DpW). *)
Definition Dwinv (k : 'I_nw) : F := (diag_prod W_mx^T (wW Wyes) k)^-1.

(* fe.py:484-485. *)
Definition WtDpJ : 'M[F]_(nw, nf1) := W_mx^T *m wJ Wyes.
Definition DwinvWtDpJ : 'M[F]_(nw, nf1) := dxm Dwinv WtDpJ.

(* fe.py:488. *)
Definition Minv : 'M[F]_nf1 := J_mx^T *m wJ Wyes - WtDpJ^T *m DwinvWtDpJ.

(* fe.py:1297-1317 _mult_A. *)
Definition mult_A (psi : 'cV[F]_nf1) (alpha : 'cV[F]_nw) (m : wmode) : 'cV[F]_nn :=
  wJ m *m psi + wW m *m alpha.

(* fe.py:1319-1338 _mult_Atranspose. *)
Definition mult_Atranspose (v : 'cV[F]_nn) (m : wmode) : 'cV[F]_nf1 * 'cV[F]_nw :=
  ((wJ m)^T *m v, (wW m)^T *m v).

(* The inner solver of fe.py:1351-1366: system matrix, right-hand side. *)
Variable solver : 'M[F]_nf1 -> 'cV[F]_nf1 -> 'cV[F]_nf1.

(* fe.py:1340-1371 _mult_AAinv. *)
Definition mult_AAinv (psi : 'cV[F]_nf1) (alpha : 'cV[F]_nw)
  : 'cV[F]_nf1 * 'cV[F]_nw :=
  let psi_out := solver Minv (psi - DwinvWtDpJ^T *m alpha) in
  let alpha_out := dxm Dwinv alpha - DwinvWtDpJ *m psi_out in
  (psi_out, alpha_out).

(* fe.py:1373-1389 _solve. *)
Definition solve (Y : 'cV[F]_nn) (m : wmode) : 'cV[F]_nf1 * 'cV[F]_nw :=
  let '(JtY, WtY) := mult_Atranspose Y m in mult_AAinv JtY WtY.

(* fe.py:1391-1403 _proj. *)
Definition proj (Y : 'cV[F]_nn) (m0 m2 : wmode) : 'cV[F]_nn :=
  let '(psi, alpha) := solve Y m2 in mult_A psi alpha m0.

(* fe.py:586-593 _estimate_ols. *)
Definition estimate_ols (Y : 'cV[F]_nn) : 'cV[F]_nf1 * 'cV[F]_nw := solve Y Wyes.

(* fe.py:608-618 _attach_fe_estimates: 0 prepended for firm 0, then indexed by
   the id columns.  Columns psi_hat and alpha_hat. *)
Definition attach_psi (psi : 'cV[F]_nf1) (r : 'I_nn) : F :=
  if unlift ord0 (fj d r) is Some k then psi k 0 else 0.
Definition attach_alpha (alpha : 'cV[F]_nw) (r : 'I_nn) : F := alpha (fi d r) 0.

(* fe.py:627 residuals E. *)
Definition resid (Y : 'cV[F]_nn) : 'cV[F]_nn :=
  let '(psi, alpha) := estimate_ols Y in Y - mult_A psi alpha Wno.

(* fe.py:620-637 sigma_2_fe = weighted_mean(Dp * E ** 2, Dp). *)
Definition sigma_2_fe (Y : 'cV[F]_nn) : F :=
  weighted_mean (\col_r (Dp r * resid Y r 0 ^+ 2)) (fw d).

(* fe.py:1266-1280 _construct_AAinv_components_full.  np.linalg.inv raises on
   a singular matrix; here the theorems assume Minv invertible.  The last line
   adds the 1-dimensional array Dwinv to a matrix: NumPy broadcasts it over
   the rows, so column k of every row gets Dwinv[k]. *)
Definition AA_inv_A : 'M[F]_nf1 := invmx Minv.
Definition AA_inv_B : 'M[F]_(nf1, nw) :=
  (- AA_inv_A) *m J_mx^T *m mxd (wW Wyes) Dwinv.
Definition AA_inv_C : 'M[F]_(nw, nf1) := AA_inv_B^T.
Definition AA_inv_D : 'M[F]_nw :=
  (\matrix_(l, k) Dwinv k) + AA_inv_C *m Minv *m AA_inv_B.

(* fe.py:1282-1295 _construct_AAinv_components_partial. *)
Definition AA_inv_B_part : 'M[F]_(nf1, nw) := (- J_mx^T) *m mxd (wW Wyes) Dwinv.
Definition AA_inv_C_part : 'M[F]_(nw, nf1) := AA_inv_B_part^T.

(* The product of 1-dimensional arrays, u @ v. *)
Definition dot q (u v : 'cV[F]_q) : F := \sum_k u k 0 * v k 0.

(* fe.py:1405-1445 _compute_Pii.  [explicit] tells whether AA_inv_A is there
   (fe.py:1415).  In the other branch [self.Dwinv @ DpW_i] is the product of
   two 1-dimensional arrays, a scalar, added to every entry of a vector. *)
Definition compute_Pii (explicit : bool) (J_i : 'cV[F]_nf1) (W_i : 'cV[F]_nw) : F :=
  if explicit then
    dot J_i (AA_inv_A *m J_i) + dot J_i (AA_inv_B *m W_i)
    + dot W_i (AA_inv_C *m J_i) + dot W_i (AA_inv_D *m W_i)
  else
    let M_J := solver Minv J_i in
    let M_B := solver Minv (AA_inv_B_part *m W_i) in
    dot J_i M_J + dot J_i M_B + dot W_i (AA_inv_C_part *m M_J)
    + dot W_i (const_mx (dot (\col_k Dwinv k) W_i) + AA_inv_C_part *m M_B).

(* The leverage loop of fe.py:1489-1508: every row when unweighted, movers'
   rows only when weighted; the other entries stay 0. *)
Definition lev_rows (r : 'I_nn) : bool := if fw d is Some _ then fm d r else true.
Definition lev_vec (explicit : bool) (r : 'I_nn) : F :=
  if lev_rows r
  then compute_Pii explicit (row r (wJ Wsqrt))^T (row r (wW Wsqrt))^T
  else 0.

(* fe.py:1511-1521: the reported range is over movers when weighted or when
   stayers get firm means; .min() of an empty array and a maximum >= 1 raise. *)
Definition check_rows (so : stayers_opt) (r : 'I_nn) : bool :=
  match fw d, so with
  | Some _, _ | _, FirmMean => fm d r
  | None, UpperBound => true
  end.
Definition lev_check (so : stayers_opt) (P : 'I_nn -> F) : Base.res ('I_nn -> F) :=
  if ~~ [exists r, check_rows so r] then Base.Err Base.ValueError
  else if [exists r, check_rows so r && (1 <= P r)] then Base.Err Base.ValueError
  else Base.Ok P.

(* fe.py:1479-1525 _estimate_exact_leverages. *)
Definition estimate_exact_leverages (so : stayers_opt) : Base.res ('I_nn -> F) :=
  lev_check so (lev_vec true).

(* fe.py:702-717 _estimate_exact_trace_sigma_2. *)
Definition exact_trace_sigma_2 : F :=
  \sum_r (diag_prod J_mx (J_mx *m AA_inv_A + W_mx *m AA_inv_C)^T r
          + diag_prod W_mx (J_mx *m AA_inv_B + W_mx *m AA_inv_D)^T r).

(* fe.py:744-757 one Hutchinson draw for sigma^2, [Z.T @ Az]. *)
Definition trace_sigma_2_draw (Z : 'cV[F]_nn) : F :=
  let '(p, a) := solve Z Wno in dot Z (mult_A p a Wno).

(* fe.py:763-779 Hutch++.  [Q] is the orthonormal factor of np.linalg.qr of
   the first-stage products, [G0] the second block of signs, both with
   [n_draws] columns. *)
Definition hutchpp_sigma_2 (k : nat) (Q G0 : 'M[F]_(nn, k)) : F :=
  let G := G0 - Q *m (Q^T *m G0) in
  let prods (X : 'M[F]_(nn, k)) : 'M[F]_(nn, k) :=
    \matrix_(r, c) (let '(p, a) := solve (col c X) Wno in mult_A p a Wno) r 0 in
  sum_diag_prod Q^T (prods Q) + (1 / k%:R) * sum_diag_prod G^T (prods G).

(* fe.py:781-793 _estimate_sigma_2_ho; [tr] is np.mean(self.tr_sigma_ho_all). *)
Definition sigma_2_ho (tr : F) (Y : 'cV[F]_nn) : F :=
  match fw d with
  | Some w =>
      let s2u := (\sum_r resid Y r 0 ^+ 2) / nn%:R in
      (nn%:R * s2u) / (\sum_r 1 / w r - tr)
  | None => (nn%:R * sigma_2_fe Y) / (nn%:R - (nw%:R + nf1.+1%:R - 1))
  end.

(* A Q option: a matrix with [q] rows tagged 'psi', 'alpha' or 'gamma'
   (Q/Q.py:33-224). *)
Inductive half (q : nat) :=
| HPsi of 'M[F]_(q, nf1)
| HAlpha of 'M[F]_(q, nw)
| HGamma of 'M[F]_(q, nf1 + nw).

(* Q/Q.py  _Q_mult, _Ql_mult, _Qr_mult. *)
Definition half_mult q (h : half q) (psi : 'cV[F]_nf1) (alpha : 'cV[F]_nw) : 'cV[F]_q :=
  match h with
  | HPsi M => M *m psi
  | HAlpha M => M *m alpha
  | HGamma M => M *m col_mx psi alpha
  end.

(* Q/Q.py:33-46, 78-92, 123-137, 168-196  _get_Q, _get_Ql, _get_Qr: the matrix
   part; the weights are Dp in every case. *)
Inductive qopt := VarPsi | VarAlpha | VarPsiPlusAlpha.
Definition get_Q (o : qopt) : half nn :=
  match o with
  | VarPsi => HPsi J_mx
  | VarAlpha => HAlpha W_mx
  | VarPsiPlusAlpha => HGamma (row_mx J_mx W_mx)
  end.
(* CovPsiAlpha, Q/Q.py:155-224. *)
Definition cov_Ql : half nn := HPsi J_mx.
Definition cov_Qr : half nn := HAlpha W_mx.

(* fe.py:666-700 _estimate_fe. *)
Definition var_fe q (h : half q) (w : wopt F q) (pa : 'cV[F]_nf1 * 'cV[F]_nw) : F :=
  weighted_var (half_mult h pa.1 pa.2) w.
Definition cov_fe q (hl hr : half q) (wl wr : wopt F q)
    (pa : 'cV[F]_nf1 * 'cV[F]_nw) : F :=
  weighted_cov sq (half_mult hl pa.1 pa.2) (half_mult hr pa.1 pa.2) wl wr.

(* fe.py:822-824, 847-850: a scalar weight becomes a vector of ones. *)
Definition wvec q (w : wopt F q) : 'I_q -> F :=
  if w is Some w then w else fun _ => 1.

(* fe.py:833-834  U = eye - (1 / n) * tile(weights). *)
Definition demean q (w : 'I_q -> F) : 'M[F]_q :=
  1%:M - (1 / \sum_r w r) *: \matrix_(_, k) w k.

(* fe.py:836-837  the variance matrix of one quadrant. *)
Definition Q_var_mx q k (M : 'M[F]_(q, k)) (w : 'I_q -> F) : 'M[F]_k :=
  let X := dxm (fun r => sq (w r)) (demean w) *m M in
  (1 / \sum_r w r) *: X^T *m X.

(* fe.py:858-868  the covariance matrix of one quadrant. *)
Definition Q_cov_mx q k l (Ml : 'M[F]_(q, k)) (Mr : 'M[F]_(q, l))
    (wl wr : 'I_q -> F) : 'M[F]_(k, l) :=
  (1 / \sum_r (sq (wl r) * sq (wr r))) *:
    Ml^T *m mxd (demean wl)^T (fun r => sq (wl r))
    *m dxm (fun r => sq (wr r)) (demean wr) *m Mr.

(* fe.py:795-873 _estimate_exact_trace_ho, one variance and one covariance. *)
Definition exact_trace_ho_var q (h : half q) (w : wopt F q) : Base.res F :=
  match h with
  | HPsi M => Base.Ok (sum_diag_prod (Q_var_mx M (wvec w)) AA_inv_A)
  | HAlpha M => Base.Ok (sum_diag_prod (Q_var_mx M (wvec w)) AA_inv_D)
  | HGamma _ => Base.Err Base.NotImplementedError
  end.
Definition exact_trace_ho_cov q (hl hr : half q) (wl wr : wopt F q) : Base.res F :=
  match hl, hr with
  | HPsi Ml, HPsi Mr =>
      Base.Ok (sum_diag_prod (Q_cov_mx Ml Mr (wvec wl) (wvec wr)) AA_inv_A)
  | HPsi Ml, HAlpha Mr =>
      Base.Ok (sum_diag_prod (Q_cov_mx Ml Mr (wvec wl) (wvec wr)) AA_inv_C)
  | HAlpha Ml, HPsi Mr =>
      Base.Ok (sum_diag_prod (Q_cov_mx Ml Mr (wvec wl) (wvec wr)) AA_inv_B)
  | HAlpha Ml, HAlpha Mr =>
      Base.Ok (sum_diag_prod (Q_cov_mx Ml Mr (wvec wl) (wvec wr)) AA_inv_D)
  | _, _ => Base.Err Base.NotImplementedError
  end.

(* fe.py:904-922 one draw of the approximate HO traces. *)
Definition trace_ho_var_draw q (h : half q) (w : wopt F q)
    (z : 'cV[F]_nf1 * 'cV[F]_nw) : F :=
  let pa := mult_AAinv z.1 z.2 in
  weighted_cov sq (half_mult h z.1 z.2) (half_mult h pa.1 pa.2) w w.
Definition trace_ho_cov_draw q (hl hr : half q) (wl wr : wopt F q)
    (z : 'cV[F]_nf1 * 'cV[F]_nw) : F :=
  let pa := mult_AAinv z.1 z.2 in
  weighted_cov sq (half_mult hl z.1 z.2) (half_mult hr pa.1 pa.2) wl wr.

(* fe.py:941-1053 _estimate_exact_trace_he.  Same-side traces use the square
   roots of the weights, mixed ones [Dp * Sii] (unweighted: Dp = 1). *)
Definition he_side_psi (Sii : 'I_nn -> F) : 'M[F]_nf1 :=
  let X := wJ Wsqrt *m AA_inv_A + wW Wsqrt *m AA_inv_C in X^T *m dxm Sii X.
Definition he_side_alpha (Sii : 'I_nn -> F) : 'M[F]_nw :=
  let X := wJ Wsqrt *m AA_inv_B + wW Wsqrt *m AA_inv_D in X^T *m dxm Sii X.
Definition exact_trace_he_var q (h : half q) (w : wopt F q) (Sii : 'I_nn -> F)
  : Base.res F :=
  match h with
  | HPsi M => Base.Ok (sum_diag_prod (Q_var_mx M (wvec w)) (he_side_psi Sii))
  | HAlpha M => Base.Ok (sum_diag_prod (Q_var_mx M (wvec w)) (he_side_alpha Sii))
  | HGamma _ => Base.Err Base.NotImplementedError
  end.
Definition exact_trace_he_cov q (hl hr : half q) (wl wr : wopt F q)
    (Sii : 'I_nn -> F) : Base.res F :=
  let DS r := Dp r * Sii r in
  match hl, hr with
  | HPsi Ml, HPsi Mr =>
      Base.Ok (sum_diag_prod (Q_cov_mx Ml Mr (wvec wl) (wvec wr)) (he_side_psi Sii))
  | HAlpha Ml, HPsi Mr =>
      Base.Ok (sum_diag_prod (Q_cov_mx Ml Mr (wvec wl) (wvec wr))
        ((AA_inv_A *m J_mx^T + AA_inv_B *m W_mx^T)
         *m dxm DS (J_mx *m AA_inv_B + W_mx *m AA_inv_D)))
  | HPsi Ml, HAlpha Mr =>
      Base.Ok (sum_diag_prod (Q_cov_mx Ml Mr (wvec wl) (wvec wr))
        ((AA_inv_C *m J_mx^T + AA_inv_D *m W_mx^T)
         *m dxm DS (J_mx *m AA_inv_A + W_mx *m AA_inv_C)))
  | HAlpha Ml, HAlpha Mr =>
      Base.Ok (sum_diag_prod (Q_cov_mx Ml Mr (wvec wl) (wvec wr)) (he_side_alpha Sii))
  | _, _ => Base.Err Base.NotImplementedError
  end.

(* fe.py:1092-1103 the right-hand vector of one approximate HE draw. *)
Definition he_right (Sii : 'I_nn -> F) (z : 'cV[F]_nf1 * 'cV[F]_nw)
  : 'cV[F]_nf1 * 'cV[F]_nw :=
  let pa := mult_AAinv z.1 z.2 in
  let v := dxm Sii (mult_A pa.1 pa.2 Wyes) in
  let jw := mult_Atranspose v Wyes in
  mult_AAinv jw.1 jw.2.

(* fe.py:1106-1128 one draw of the approximate HE traces. *)
Definition trace_he_var_draw q (h : half q) (w : wopt F q) (Sii : 'I_nn -> F)
    (z : 'cV[F]_nf1 * 'cV[F]_nw) : F :=
  let pa := he_right Sii z in
  weighted_cov sq (half_mult h z.1 z.2) (half_mult h pa.1 pa.2) w w.
Definition trace_he_cov_draw q (hl hr : half q) (wl wr : wopt F q) (Sii : 'I_nn -> F)
    (z : 'cV[F]_nf1 * 'cV[F]_nw) : F :=
  let pa := he_right Sii z in
  weighted_cov sq (half_mult hl z.1 z.2) (half_mult hr pa.1 pa.2) wl wr.

(* fe.py:1165, 1196  np.mean over the draws. *)
Definition mean_draws (k : nat) (f : 'I_k -> F) : F := (\sum_t f t) / k%:R.

(* fe.py:1178, 1183, 1212, 1217  the corrected components. *)
Definition corrected_ho (fe s2 tr : F) : F := fe - s2 * tr.
Definition corrected_he (fe tr : F) : F := fe - tr.

(* fe.py:1633-1638  Y_bar = np.average(Y, weights=w). *)
Definition Y_bar (Y : 'cV[F]_nn) : F := (\sum_r Dp r * Y r 0) / \sum_r Dp r.

(* One term: (Y - Y_bar) times E over (1 - Pii), times jla_factor if any, fe.py:1645-1648. *)
Definition Sii_term (P : 'I_nn -> F) (jla : option ('I_nn -> F)) (Y : 'cV[F]_nn)
    (r : 'I_nn) : F :=
  let s := (Y r 0 - Y_bar Y) * (resid Y r 0 / (1 - P r)) in
  if jla is Some f then s * f r else s.

(* fe.py:1650-1676: the average over the movers of a firm.  A firm without
   movers gives NaN in the code and 0 here. *)
Definition firm_mean_Sii (Sm : 'I_nn -> F) (j : 'I_nf1.+1) : F :=
  match fw d with
  | Some w =>
      (\sum_(r | fm d r && (fj d r == j)) w r ^+ 2 * Sm r)
      / (\sum_(r | fm d r && (fj d r == j)) w r)
  | None =>
      (\sum_(r | fm d r && (fj d r == j)) Sm r)
      / (#|[pred r | fm d r && (fj d r == j)]|)%:R
  end.

(* fe.py:1701  1 / (total weight of the worker's rows), over stayers' rows. *)
Definition Pii_s (w : 'I_nn -> F) (r : 'I_nn) : F :=
  1 / \sum_(s | ~~ fm d s && (fi d s == fi d r)) w s.

(* fe.py:1620-1722 _estimate_Sii_he. *)
Definition estimate_Sii_he (so : stayers_opt) (P : 'I_nn -> F)
    (jla : option ('I_nn -> F)) (Y : 'cV[F]_nn) : Base.res ('I_nn -> F) :=
  let Sm := Sii_term P jla Y in
  match so, fw d with
  | FirmMean, Some w =>
      Base.Ok (fun r => if fm d r then Sm r else firm_mean_Sii Sm (fj d r) / w r)
  | FirmMean, None =>
      Base.Ok (fun r => if fm d r then Sm r else firm_mean_Sii Sm (fj d r))
  | UpperBound, Some w =>
      if [exists r, ~~ fm d r && (Pii_s w r == 1)] then Base.Err Base.ValueError
      else Base.Ok (fun r =>
        if fm d r then Sm r
        else (Y r 0 - Y_bar Y) * (resid Y r 0 / (1 - Pii_s w r)) / w r)
  | UpperBound, None =>
      if [exists r, ~~ fm d r &&
           (#|[pred s | ~~ fm d s && (fi d s == fi d r)]| == 1%N)]
      then Base.Err Base.ValueError
      else Base.Ok Sm
  end.

(* fe.py:1748-1756  one draw of the leverage approximation: Pi_i and Mi_i. *)
Definition lev_draw (R2 : 'cV[F]_nn) : ('I_nn -> F) * ('I_nn -> F) :=
  let q := proj R2 Wsqrt Wsqrt in
  (fun r => q r 0 ^+ 2, fun r => (R2 r 0 - q r 0) ^+ 2).

(* fe.py:1724-1775 _leverage_approx: means over the draws of Pi, Pi^2, Mi, Mi^2
   and Pi * Mi.  The draws are the sign vectors R2 in the order drawn. *)
Record lev_stats := LevStats {
  st_P : 'I_nn -> F; st_P2 : 'I_nn -> F; st_M : 'I_nn -> F; st_M2 : 'I_nn -> F;
  st_PM : 'I_nn -> F
}.
Definition leverage_approx (draws : seq 'cV[F]_nn) : lev_stats :=
  let acc (g : F -> F -> F) r :=
    foldl (fun t R2 => t + g ((lev_draw R2).1 r) ((lev_draw R2).2 r)) 0 draws
    / (size draws)%:R in
  LevStats (acc (fun a _ => a)) (acc (fun a _ => a ^+ 2)) (acc (fun _ b => b))
           (acc (fun _ b => b ^+ 2)) (acc (fun a b => a * b)).

(* fe.py:1551-1576 the five statistics: one process, or the sum over the
   processes divided by ncore. *)
Definition lev_combine (batches : seq (seq 'cV[F]_nn)) : lev_stats :=
  match batches with
  | [:: b] => leverage_approx b
  | _ =>
    let av (g : lev_stats -> 'I_nn -> F) r :=
      foldl (fun t b => t + g (leverage_approx b) r) 0 batches / (size batches)%:R in
    LevStats (av st_P) (av st_P2) (av st_M) (av st_M2) (av st_PM)
  end.

(* fe.py:222-224 (and fecontrol.py:274-276): the batch size, or the error. *)
Definition batchsize_he (he : bool) (ndraw ncore : nat) : Base.res nat :=
  if he && (ndraw %% ncore != 0)%N then Base.Err Base.ValueError
  else Base.Ok (ndraw %/ ncore)%N.

(* fe.py:1578-1618: normalisation, range check and the JLA factor.  Both error
   branches of fe.py:1588-1603 raise ValueError.  Rows outside [check_rows]
   keep their unnormalised Pii. *)
Definition lev_normalise (so : stayers_opt) (st : lev_stats) (r : 'I_nn) : F :=
  if check_rows so r then st_P st r / (st_P st r + st_M st r) else st_P st r.
Definition jla_factor (ndraw : nat) (st : lev_stats) (P : 'I_nn -> F) (r : 'I_nn) : F :=
  let p := P r in
  let m := 1 - p in
  let Vi := m ^+ 2 * st_P2 st r + p ^+ 2 * st_M2 st r - 2%:R * p * m * st_PM st r in
  let Bi := m * st_P2 st r - p * st_M2 st r + 2%:R * (m - p) * st_PM st r in
  1 - (1 / ndraw%:R) * ((Vi / m + Bi) / m).
Definition estimate_approximate_leverages (so : stayers_opt) (ndraw : nat)
    (batches : seq (seq 'cV[F]_nn)) : Base.res (('I_nn -> F) * ('I_nn -> F)) :=
  let st := lev_combine batches in
  let P := lev_normalise so st in
  if ~~ [exists r, check_rows so r] then Base.Err Base.ValueError
  else if [exists r, check_rows so r && (1 <= P r)] then Base.Err Base.ValueError
  else Base.Ok (P, jla_factor ndraw st P).

(* fe.py:1447-1481 _extract_precomputed_leverages: the mean of the files. *)
Definition precomputed_leverages (so : stayers_opt) (files : seq ('I_nn -> F))
  : Base.res ('I_nn -> F) :=
  if files is [::] then Base.Err Base.AssertionError
  else lev_check so (fun r => foldl (fun t pp => t + pp r / (size files)%:R) 0 files).

End FE.
