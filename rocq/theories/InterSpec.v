(* Vocabulary for the interacted model  wage = A_j + B_j alpha_i. *)
Set Warnings "-notation-overridden,-ambiguous-paths".
From mathcomp Require Import all_ssreflect all_algebra.
From Verif Require Import FEModel FESpec.

Set Implicit Arguments.
Unset Strict Implicit.
Unset Printing Implicit Defensive.

Import GRing.Theory Num.Theory.
Local Open Scope ring_scope.

Section Spec.
Variable F : realFieldType.
Variables nn nf1 nw : nat.
Variable d : frame F nn nf1 nw.
Variable B : 'I_nf1.+1 -> F.

(* The wage of a row without noise, and the weighted sum of squared residuals. *)
Definition i_fit (A : 'I_nf1.+1 -> F) (alpha : 'I_nw -> F) (r : 'I_nn) : F :=
  A (fj d r) + B (fj d r) * alpha (fi d r).
Definition i_ssr (Y : 'cV[F]_nn) A alpha : F :=
  \sum_r wgt d r * (Y r 0 - i_fit A alpha r) ^+ 2.

(* Every worker is seen at a firm with a slope other than zero. *)
Definition worker_norms : Prop := forall i, exists2 r, fi d r = i & B (fj d r) != 0.

(* Effects with the intercept of the last firm 0 are determined by the wages
   they give. *)
Definition i_identified : Prop :=
  forall A alpha A' alpha', A ord_max = 0 -> A' ord_max = 0 ->
    (forall r, i_fit A alpha r = i_fit A' alpha' r) ->
    (forall j, A j = A' j) /\ (forall i, alpha i = alpha' i).

End Spec.
