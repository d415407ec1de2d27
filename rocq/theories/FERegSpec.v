(* Vocabulary for the properties of the regression with controls: fitted values,
   weighted squared residuals, identification, noise, leverages.  Coefficients are
   a list in the order of the blocks of FECtlSpec.v. *)
Set Warnings "-notation-overridden,-ambiguous-paths".
From mathcomp Require Import all_ssreflect all_algebra.
From Verif Require Import FEModel FESpec FECtlModel FECtlSpec.

Set Implicit Arguments.
Unset Strict Implicit.
Unset Printing Implicit Defensive.

Import GRing.Theory Num.Theory.
Local Open Scope ring_scope.

Section Spec.
Variable F : realFieldType.
Variable N : eqType.
Variables npsi nalpha : N.
Variable d : cdata F N.
Local Notation nn := (c_nn d).
Local Notation bs := (blocks npsi nalpha d).

(* The sum of the effects of all covariates in a row. *)
Definition row_fit (g : seq F) (r : nat) : F := \sum_(e <- effects npsi nalpha d g r) e.2.

(* The weighted sum of squared residuals. *)
Definition rssr (Y : 'cV[F]_nn) (g : seq F) : F :=
  \sum_r cwgt r * (Y r 0 - row_fit g r) ^+ 2.

Definition c_positive : Prop := forall r : 'I_nn, 0 < cwgt r.

(* A list of coefficients for all columns. *)
Definition coefs (g : seq F) : Prop := size g = first_col bs.

(* Different coefficients give different fitted values. *)
Definition identified : Prop :=
  forall g h, coefs g -> coefs h -> (forall r : 'I_nn, row_fit g r = row_fit h r) -> g = h.

(* Wages: the effects of all covariates and noise. *)
Definition c_outcome (g : seq F) (eps : 'I_nn -> F) : 'cV[F]_nn :=
  \col_r (row_fit g r + eps r).

(* The effect of one covariate set in a row, true or estimated. *)
Definition c_component (n1 n2 : seq N) (g : seq F) : F :=
  cov_w (@cwgt _ _ d) (fun r => named_effect npsi nalpha d n1 g r)
        (fun r => named_effect npsi nalpha d n2 g r).

(* np.sqrt on the weights. *)
Definition c_root_ok (sq : F -> F) : Prop := forall r : 'I_nn, sq (cwgt r) * sq (cwgt r) = cwgt r.
Definition c_root_sq_ok (sq : F -> F) : Prop := forall r : 'I_nn, sq (cwgt r * cwgt r) = cwgt r.

(* [h] is what adding a number to the wage of row s adds to the fitted value of
   row r, per unit; with s = r it is the leverage of the row. *)
Definition response_of (fit : 'cV[F]_nn -> 'I_nn -> F) (r s : 'I_nn) (h : F) : Prop :=
  forall Y t, fit (Y + t *: delta_mx s 0) r = fit Y r + h * t.
Definition leverage_of (fit : 'cV[F]_nn -> 'I_nn -> F) (r : 'I_nn) (h : F) : Prop :=
  response_of fit r r h.

End Spec.

(* A solver that is exact on every system that has a solution. *)
Definition consistent (F : realFieldType) (k : nat)
    (solver : 'M[F]_k -> 'cV[F]_k -> 'cV[F]_k) (M : 'M[F]_k) : Prop :=
  forall b, (exists x, M *m x = b) -> M *m solver M b = b.

(* The data of an estimator without controls. *)
Definition plain (F : realFieldType) (N : eqType) (nn nf1 nw : nat) (d : frame F nn nf1 nw)
  : cdata F N :=
  {| c_nn := nn; c_nf := nf1.+1; c_nw := nw;
     c_j := fun r => if insub r is Some i then val (fj d i) else 0%N;
     c_i := fun r => if insub r is Some i then val (fi d i) else 0%N;
     c_cats := [::]; c_cts := [::];
     c_w := omap (fun (w : 'I_nn -> F) r => if insub r is Some i then w i else 0) (fw d) |}.

(* The same data with other weights. *)
Definition with_w (F : realFieldType) (N : eqType) (d : cdata F N) (w : option (nat -> F)) : cdata F N :=
  {| c_nn := c_nn d; c_nf := c_nf d; c_nw := c_nw d; c_j := c_j d; c_i := c_i d;
     c_cats := c_cats d; c_cts := c_cts d; c_w := w |}.
