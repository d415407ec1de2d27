(* Vocabulary for C70. *)
Set Warnings "-notation-overridden,-ambiguous-paths".
From mathcomp Require Import all_ssreflect all_algebra.
From Verif Require Base.
From Verif Require Import FESpec CrePostModel.

Set Implicit Arguments.
Unset Strict Implicit.
Unset Printing Implicit Defensive.

Import GRing.Theory Num.Theory.
Local Open Scope ring_scope.

Section Spec.
Variable F : realFieldType.
Variables nf mn nnq : nat.
Variable d : post_data F nf mn nnq.

(* What a normal prior with mean [mu0] and variance [vp] of the firm effects and
   normal noise with variance [ve] in the movers' wage changes penalise: twice the
   negative log posterior density, up to a constant. *)
Definition penalised (vp ve : F) (mu0 psi : 'I_nf -> F) : F :=
  \sum_j (psi j - mu0 j) ^+ 2 / vp
  + \sum_r (py2 d r - py1 d r - (psi (pj2 d r) - psi (pj1 d r))) ^+ 2 / ve.

(* The quadratic part of the same function: half its second derivative in the
   direction [x]. *)
Definition curvature (vp ve : F) (x : 'I_nf -> F) : F :=
  \sum_j x j ^+ 2 / vp + \sum_r (x (pj2 d r) - x (pj1 d r)) ^+ 2 / ve.

(* Variance of the firm effects over the cross section, divided by the number of rows. *)
Definition cs_mean (psi : 'I_nf -> F) : F := (\sum_q psi (pjq d q)) / nnq%:R.
Definition cs_var (psi : 'I_nf -> F) : F :=
  (\sum_q (psi (pjq d q) - cs_mean psi) ^+ 2) / nnq%:R.

(* Random firm effects [psi] with the first two moments of the normal posterior:
   the mean is the minimiser [mu] of the penalised sum and the covariance matrix
   [V] is the inverse of the matrix of the quadratic part (of the symmetric matrix
   [Q] with x' Q x = curvature x). *)
Definition posterior (Om : finType) (p : Om -> F) (psi : Om -> 'I_nf -> F)
    (vp ve : F) (mu0 mu : 'I_nf -> F) : Prop :=
  is_dist p /\
  (forall j, Ex p (fun o => psi o j) = mu j) /\
  (forall x, penalised vp ve mu0 mu <= penalised vp ve mu0 x) /\
  exists Q V : 'M[F]_nf, Q^T = Q /\
    (forall x : 'cV[F]_nf, (x^T *m Q *m x) 0 0 = curvature vp ve (fun j => x j 0)) /\
    Q *m V = 1%:M /\
    forall j k, Ex p (fun o => (psi o j - mu j) * (psi o k - mu k)) = V j k.

End Spec.
