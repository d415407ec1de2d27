(* Vocabulary for the covariance of consecutive firm effects. *)
Set Warnings "-notation-overridden,-ambiguous-paths".
From mathcomp Require Import all_ssreflect all_algebra.
From Verif Require Import FEModel FESpec.

Set Implicit Arguments.
Unset Strict Implicit.
Unset Printing Implicit Defensive.

Import GRing.Theory Num.Theory.
Local Open Scope ring_scope.

Section Spec.
Variable F : realFieldType.
Variable sq : F -> F.
Variables nn nf1 nw : nat.
Variable d : frame F nn nf1 nw.

(* Row s comes right after row r and belongs to the same worker. *)
Definition adjacent (r s : 'I_nn) : bool := (val s == (val r).+1) && (fi d r == fi d s).

Definition adj_sum (f : 'I_nn -> 'I_nn -> F) : F :=
  \sum_(x : 'I_nn * 'I_nn | adjacent x.1 x.2) f x.1 x.2.

(* The weight of a pair: 1 for unweighted data, else the geometric mean. *)
Definition pair_wgt (r s : 'I_nn) : F :=
  match fw d with Some w => sq (w r * w s) | None => 1 end.

(* Mean effect of the earlier and of the later firm, and the covariance. *)
Definition mean_prev (psi : 'I_nf1.+1 -> F) : F :=
  adj_sum (fun r _ => wgt d r * psi (fj d r)) / adj_sum (fun r _ => wgt d r).
Definition mean_next (psi : 'I_nf1.+1 -> F) : F :=
  adj_sum (fun _ s => wgt d s * psi (fj d s)) / adj_sum (fun _ s => wgt d s).
Definition cov_prev_next (psi : 'I_nf1.+1 -> F) : F :=
  adj_sum (fun r s => pair_wgt r s * (psi (fj d r) - mean_prev psi)
                                  * (psi (fj d s) - mean_next psi))
  / adj_sum pair_wgt.

End Spec.
