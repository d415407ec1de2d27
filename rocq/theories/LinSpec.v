(* Vocabulary for the linear estimator of the interacted model:
   y1 = A1 + B1 alpha at the first firm, y2 = A2 + B2 alpha at the second. *)
Set Warnings "-notation-overridden,-ambiguous-paths".
From mathcomp Require Import all_ssreflect all_algebra.
From Verif Require Import LinModel.

Set Implicit Arguments.
Unset Strict Implicit.
Unset Printing Implicit Defensive.

Import GRing.Theory Num.Theory.
Local Open Scope ring_scope.

Section Spec.
Variable F : realFieldType.
Variable n : nat.
Variable d : edata F n.
Variable nf : nat.

Definition firms_ok : Prop := forall r, (e_j1 d r < nf)%N /\ (e_j2 d r < nf)%N.

(* Wages of movers without noise. *)
Definition e_noise_free (A1 A2 B1 B2 : nat -> F) (alpha : 'I_n -> F) : Prop :=
  forall r, e_y1 d r = A1 (e_j1 d r) + B1 (e_j1 d r) * alpha r
         /\ e_y2 d r = A2 (e_j2 d r) + B2 (e_j2 d r) * alpha r.

(* The weight of a mover. *)
Definition e_wgt (r : 'I_n) : F := if e_w d is Some w then (w r).1 * (w r).2 else 1.

(* Squared errors of wage changes predicted by intercepts. *)
Definition change_ssr (A1 A2 : nat -> F) : F :=
  \sum_r e_wgt r * ((e_y1 d r - e_y2 d r) - (A1 (e_j1 d r) - A2 (e_j2 d r))) ^+ 2.

(* Intercepts linked to the first intercept of firm 0 by moves; h is false for the
   first period.  With the same intercepts in both periods these are also linked. *)
Inductive e_linked (same : bool) : bool -> nat -> Prop :=
| link_start : e_linked same false 0
| link_to r : e_linked same false (e_j1 d r) -> e_linked same true (e_j2 d r)
| link_from r : e_linked same true (e_j2 d r) -> e_linked same false (e_j1 d r)
| link_same h j : same -> e_linked same h j -> e_linked same (~~ h) j.

(* What is left of an equation with other coefficients: y2/B2 - y1/B1 + A1/B1 - A2/B2,
   with b for 1/B and a for A/B. *)
Definition e_resid (b1 b2 a1 a2 : nat -> F) (r : 'I_n) : F :=
  e_y2 d r * b2 (e_j2 d r) - e_y1 d r * b1 (e_j1 d r) + a1 (e_j1 d r) - a2 (e_j2 d r).

(* The moment conditions of the instruments: sums of e over groups of rows. *)
Definition moments (ins : linstrument) (coarse : nat) (e : 'I_n -> F) : Prop :=
  match ins with
  | FirmPairs =>
      if coarse == 0%N then
        forall k1 k2, \sum_(r | (e_j1 d r == k1) && (e_j2 d r == k2)) e r = 0
      else
        (forall k1 k2, \sum_(r | (e_j1 d r == k1) && (e_j2 d r %/ coarse == k2)%N) e r = 0) /\
        (forall k1 k2, \sum_(r | (e_j2 d r == k2) && (e_j1 d r %/ coarse == k1)%N) e r = 0)
  | WorkerIds => forall i, \sum_(r | e_i d r == i) e r = 0
  end.

(* The instruments identify the coefficients: only zero coefficients satisfy the
   moment conditions without the normalised column; u is the weight of a row. *)
Definition relevant (p : lparams F) (u : 'I_n -> F) : Prop :=
  forall b1 b2 a1 a2 : nat -> F,
  b1 (l_norm p) = 0 -> a1 0%N = 0 ->
  (l_stat_b p -> forall j, (j < nf)%N -> b1 j = b2 j) ->
  (l_stat_a p -> forall j, (j < nf)%N -> a1 j = a2 j) ->
  moments (l_instrument p) (l_coarse p) (fun r => u r * e_resid b1 b2 a1 a2 r) ->
  forall j, (j < nf)%N -> [/\ b1 j = 0, b2 j = 0, a1 j = 0 & a2 j = 0].

(* The instruments exist. *)
Definition instruments_exist (p : lparams F) (nw : nat) : Prop :=
  if l_instrument p is WorkerIds then l_coarse p = 0%N /\ forall r, (e_i d r < nw)%N else True.

(* Weighted mean of a worker effect over the rows of a firm. *)
Definition firm_mean (alpha : 'I_n -> F) (j : nat) : F :=
  (\sum_(r | e_j1 d r == j) e_wgt r * alpha r) / (\sum_(r | e_j1 d r == j) e_wgt r).

End Spec.
