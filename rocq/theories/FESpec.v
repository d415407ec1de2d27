(* Vocabulary for the properties of the fixed-effects estimator.  Nothing here
   uses the estimator's own definitions except the data record [frame]. *)
Set Warnings "-notation-overridden,-ambiguous-paths".
From mathcomp Require Import all_ssreflect all_algebra.
From Verif Require Base.
From Verif Require Import FEModel.

Set Implicit Arguments.
Unset Strict Implicit.
Unset Printing Implicit Defensive.

Import GRing.Theory Num.Theory.
Local Open Scope ring_scope.

(* ---- averages ---------------------------------------------------------- *)

Section Averages.
Variable F : realFieldType.

(* Weighted mean and covariance of two columns of numbers. *)
Definition avg_w (I : finType) (w x : I -> F) : F :=
  (\sum_r w r * x r) / \sum_r w r.
Definition cov_w (I : finType) (w x y : I -> F) : F :=
  (\sum_r w r * (x r - avg_w w x) * (y r - avg_w w y)) / \sum_r w r.
Definition var_w (I : finType) (w x : I -> F) : F := cov_w w x x.

(* A finite probability space and expectation. *)
Definition is_dist (Om : finType) (p : Om -> F) : Prop :=
  (forall o, 0 <= p o) /\ \sum_o p o = 1.
Definition Ex (Om : finType) (p : Om -> F) (f : Om -> F) : F := \sum_o p o * f o.

(* Mean-zero uncorrelated errors with variances [v]. *)
Definition uncorrelated (Om : finType) (p : Om -> F) (I : finType)
    (eps : Om -> I -> F) (v : I -> F) : Prop :=
  (forall r, Ex p (fun o => eps o r) = 0) /\
  (forall r s, Ex p (fun o => eps o r * eps o s) = if r == s then v r else 0).

(* The average over all elements of a finite type, and the sign vectors over
   which [2 * rng.binomial(1, 0.5, n) - 1] is uniform. *)
Definition uniform (T : finType) (f : T -> F) : F := (\sum_t f t) / #|T|%:R.
Definition signs (n : nat) (b : {ffun 'I_n -> bool}) : 'cV[F]_n :=
  \col_r (if b r then 1 else -1).

End Averages.

(* ---- the regression ---------------------------------------------------- *)

Section Regression.
Variable F : realFieldType.
Variables nn nf1 nw : nat.
Variable d : frame F nn nf1 nw.

(* The weight of a row; 1 for unweighted data. *)
Definition wgt (r : 'I_nn) : F := match fw d with Some w => w r | None => 1 end.

Definition positive_weights : Prop := forall r, 0 < wgt r.
Definition workers_observed : Prop := forall i, exists r, fi d r = i.

(* Firms linked to firm 0 by workers who were observed at both. *)
Inductive reach : 'I_nf1.+1 -> Prop :=
| reach_0 : reach ord0
| reach_step r s : fi d r = fi d s -> reach (fj d r) -> reach (fj d s).
Definition connected : Prop := forall j, reach j.

(* The effects of all firms given the vector for firms 1, 2, ...:
   the effect of firm 0 is 0. *)
Definition firm_eff (psi : 'cV[F]_nf1) (j : 'I_nf1.+1) : F :=
  if unlift ord0 j is Some k then psi k 0 else 0.

(* The fitted value of a row, and the weighted sum of squared residuals. *)
Definition fitted (psi : 'I_nf1.+1 -> F) (alpha : 'I_nw -> F) (r : 'I_nn) : F :=
  psi (fj d r) + alpha (fi d r).
Definition ssr (y : 'cV[F]_nn) (psi : 'I_nf1.+1 -> F) (alpha : 'I_nw -> F) : F :=
  \sum_r wgt r * (y r 0 - fitted psi alpha r) ^+ 2.

(* The normal equations: weighted residuals sum to zero within every firm and
   within every worker. *)
Definition firm_eqn (y : 'cV[F]_nn) psi alpha (j : 'I_nf1.+1) : Prop :=
  \sum_(r | fj d r == j) wgt r * (y r 0 - fitted psi alpha r) = 0.
Definition worker_eqn (y : 'cV[F]_nn) psi alpha (i : 'I_nw) : Prop :=
  \sum_(r | fi d r == i) wgt r * (y r 0 - fitted psi alpha r) = 0.

(* Design matrix A = [J W] without the column of firm 0, the normal matrix
   A.T Dp A and the weighted hat matrix sqrt(Dp) A (A.T Dp A)^-1 A.T sqrt(Dp)
   for a given vector of square roots of the weights. *)
Definition design : 'M[F]_(nn, nf1 + nw) :=
  row_mx (\matrix_(r, k) (fj d r == lift ord0 k)%:R)
         (\matrix_(r, k) (fi d r == k)%:R).
Definition normal_mx : 'M[F]_(nf1 + nw) :=
  design^T *m diag_mx (\row_r wgt r) *m design.
Definition hat (root : 'I_nn -> F) : 'M[F]_nn :=
  diag_mx (\row_r root r) *m design *m invmx normal_mx *m design^T
  *m diag_mx (\row_r root r).

(* The solver contract: exact on every right-hand side of the system. *)
Definition exact_solver (solver : 'M[F]_nf1 -> 'cV[F]_nf1 -> 'cV[F]_nf1) (M : 'M[F]_nf1) :=
  forall b, M *m solver M b = b.

(* The square root of a row's weight that enters the computation; unweighted
   data use 1. *)
Definition row_root (sq : F -> F) (r : 'I_nn) : F :=
  match fw d with Some w => sq (w r) | None => 1 end.

(* np.sqrt on the numbers it is applied to. *)
Definition root_ok (sq : F -> F) : Prop :=
  forall r, sq (wgt r) * sq (wgt r) = wgt r.
Definition root_sq_ok (sq : F -> F) : Prop :=
  forall r, sq (wgt r * wgt r) = wgt r.

(* Noise around true effects. *)
Definition outcome (psi : 'I_nf1.+1 -> F) (alpha : 'I_nw -> F) (eps : 'I_nn -> F)
  : 'cV[F]_nn := \col_r (fitted psi alpha r + eps r).

(* The coefficients estimated from noise-free data: the effect of firm 0 is
   moved into the worker effects. *)
Definition normalised (psi : 'I_nf1.+1 -> F) (alpha : 'I_nw -> F) : 'cV[F]_nf1 * 'cV[F]_nw :=
  (\col_k (psi (lift ord0 k) - psi ord0), \col_i (alpha i + psi ord0)).

(* The linear map from wages to weighted least squares coefficients. *)
Definition ls_map : 'M[F]_(nf1 + nw, nn) :=
  invmx normal_mx *m design^T *m diag_mx (\row_r wgt r).

(* The effect of a row that a named option is about. *)
Definition row_effect (o : qopt) (psi : 'I_nf1.+1 -> F) (alpha : 'I_nw -> F) (r : 'I_nn) : F :=
  match o with
  | VarPsi => psi (fj d r)
  | VarAlpha => alpha (fi d r)
  | VarPsiPlusAlpha => psi (fj d r) + alpha (fi d r)
  end.

(* The true value of a component: the weighted covariance over the rows of two
   effects (a variance when they are the same). *)
Definition component (ol or : qopt) psi alpha : F :=
  cov_w wgt (row_effect ol psi alpha) (row_effect or psi alpha).

(* [Q] is the matrix of a component: b' Q c is the weighted covariance of the
   effects under coefficients b and c (firm 0 has effect 0). *)
Definition is_form (ol or : qopt) (Q : 'M[F]_(nf1 + nw)) : Prop :=
  forall b c : 'cV[F]_(nf1 + nw),
    (b^T *m Q *m c) 0 0 =
    cov_w wgt (row_effect ol (firm_eff (usubmx b)) (fun i => dsubmx b i 0))
              (row_effect or (firm_eff (usubmx c)) (fun i => dsubmx c i 0)).

(* Leverages are wanted for the rows of movers; unweighted data also for the rows
   of stayers.  They have to be below 1 where a variance is computed from them:
   for movers, and for stayers of unweighted data with the option upper_bound. *)
Definition leverage_wanted (r : 'I_nn) : bool :=
  fm d r || (if fw d is Some _ then false else true).
Definition leverage_used (so : stayers_opt) (r : 'I_nn) : bool :=
  fm d r || (match fw d, so with None, UpperBound => true | _, _ => false end).

End Regression.

(* Two leverage results agree: same error, or the same numbers in every row. *)
Definition same_result (F : realFieldType) (nn : nat)
    (x y : Base.res (('I_nn -> F) * ('I_nn -> F))) : Prop :=
  match x, y with
  | Base.Ok (P, jl), Base.Ok (P', jl') => P =1 P' /\ jl =1 jl'
  | Base.Err e, Base.Err e' => e = e'
  | _, _ => False
  end.
