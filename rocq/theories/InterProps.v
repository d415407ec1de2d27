(* Properties of the intercepts and worker effects of the interacted fixed-point
   estimator.  Model: InterModel.v.  Vocabulary: InterSpec.v, FESpec.v,
   FERegSpec.v. *)
Set Warnings "-notation-overridden,-ambiguous-paths".
From mathcomp Require Import all_ssreflect all_algebra.
From Verif Require Import FEModel FESpec FERegSpec InterModel InterSpec InterLemmas InterPropLemmas.

Set Implicit Arguments.
Unset Strict Implicit.
Unset Printing Implicit Defensive.

Import GRing.Theory Num.Theory.
Local Open Scope ring_scope.

Section Props.
Variable F : realFieldType.
Variables nn nf1 nw : nat.
Implicit Types (d : frame F nn nf1 nw) (B : 'cV[F]_nf1.+1) (Y : 'cV[F]_nn).

(* C53: the last firm has intercept 0; the weighted residuals sum to zero in every
   other firm, and to zero in every worker when weighted by B. *)
Theorem C53_normal_equations d B solver Y :
  positive_weights d -> worker_norms d (fun j => B j 0) -> consistent solver (i_M d B) ->
  let: (A, alpha) := fit_a_alpha d B solver Y in
  let resid r := Y r 0 - (A (fj d r) + B (fj d r) 0 * alpha (fi d r)) in
  [/\ A ord_max = 0,
      forall j, j != ord_max -> \sum_(r | fj d r == j) wgt d r * resid r = 0
    & forall i, \sum_(r | fi d r == i) wgt d r * B (fj d r) 0 * resid r = 0].
Proof. by move=> pw wn hs; split; [exact: t_last|exact: t_firm|exact: t_worker]. Qed.

(* C53: no intercepts and worker effects fit better; the last intercept may be
   anything when B of the last firm is not zero. *)
Theorem C53_least_squares d B solver Y A alpha :
  positive_weights d -> worker_norms d (fun j => B j 0) -> consistent solver (i_M d B) ->
  A ord_max = 0 \/ B ord_max 0 != 0 ->
  i_ssr d (fun j => B j 0) Y (fit_a_alpha d B solver Y).1 (fit_a_alpha d B solver Y).2
  <= i_ssr d (fun j => B j 0) Y A alpha.
Proof. by move=> pw wn hs [a0|nz]; [exact: t_min|exact: t_min_all]. Qed.

(* C53: wages without noise are fitted exactly, and the effects are recovered
   up to the normalisation when the data determine them. *)
Theorem C53_noise_free d B solver (A : 'I_nf1.+1 -> F) (alpha : 'I_nw -> F) :
  positive_weights d -> worker_norms d (fun j => B j 0) -> consistent solver (i_M d B) ->
  B ord_max 0 != 0 ->
  let Y := \col_r (A (fj d r) + B (fj d r) 0 * alpha (fi d r)) in
  let: (Ah, alphah) := fit_a_alpha d B solver Y in
  (forall r, Ah (fj d r) + B (fj d r) 0 * alphah (fi d r) = Y r 0) /\
  (i_identified d (fun j => B j 0) ->
   let c := A ord_max / B ord_max 0 in
   (forall j, Ah j = A j - c * B j 0) /\ (forall i, alphah i = alpha i + c)).
Proof.
move=> pw wn hs nz Y; split; last exact: (@t_exact _ _ _ _ _ _ _ pw wn hs).
by move=> r; rewrite [RHS]mxE; exact: (@t_recover _ _ _ _ _ _ _ pw wn hs).
Qed.

End Props.

Print Assumptions C53_normal_equations.
Print Assumptions C53_least_squares.
Print Assumptions C53_noise_free.

(* Two workers at two firms with weights 1, 2, 3, 4 and slopes 1, 2: intercepts 3
   and 1 and effects 5 and 7 are found as 5/2, 0, 11/2, 15/2. *)
Example C53_case (F : realFieldType) :
  let B := fun j => B53 F j 0 in
  positive_weights (d53 F) /\ worker_norms (d53 F) B /\ i_identified (d53 F) B /\
  consistent (@psolve F 1) (i_M (d53 F) (B53 F)) /\ B ord_max != 0 /\
  let A (j : 'I_2) : F := if j == ord0 then 3%:R else 1 in
  let alpha (i : 'I_2) : F := if i == ord0 then 5%:R else 7%:R in
  let Y := \col_r (A (fj (d53 F) r) + B (fj (d53 F) r) * alpha (fi (d53 F) r)) in
  let: (Ah, alphah) := fit_a_alpha (d53 F) (B53 F) (@psolve F 1) Y in
  [/\ Ah ord0 = 3%:R - 1 / 2%:R * 1, Ah ord_max = 0,
      alphah ord0 = 5%:R + 1 / 2%:R & alphah ord_max = 7%:R + 1 / 2%:R].
Proof.
have nz : B53 F ord_max 0 != 0 by rewrite mxE pnatr_eq0.
split; first exact: d53_pos.
split; first exact: d53_norms.
split; first exact: d53_id.
split; first exact: psolve_ok.
split=> // A alpha Y.
have [_ /(_ (@d53_id F)) [ha hal]] := @C53_noise_free F 4 1 2 (d53 F) (B53 F) (@psolve F 1) A alpha
  (@d53_pos F) (@d53_norms F) (@psolve_ok F 1 _) nz.
have h2 : B53 F ord_max 0 = 2%:R by rewrite mxE.
split.
- by rewrite ha /A /= h2 mxE.
- exact: t_last.
- by rewrite hal /A /alpha /= h2.
- by rewrite hal /A /alpha /= h2.
Qed.
