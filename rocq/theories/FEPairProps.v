(* C55: the covariance of consecutive firm effects. *)
Set Warnings "-notation-overridden,-ambiguous-paths".
From mathcomp Require Import all_ssreflect all_algebra.
From Verif Require Base.
From Verif Require Import FEModel FESpec FEPairModel FEPairSpec FEPairLemmas FEPairPropLemmas FECases.

Set Implicit Arguments.
Unset Strict Implicit.
Unset Printing Implicit Defensive.

Import GRing.Theory Num.Theory Order.POrderTheory.
Local Open Scope ring_scope.

Local Notation sgns nf1 nw := ({ffun 'I_nf1 -> bool} * {ffun 'I_nw -> bool})%type.

Section C55.
Variable F : realFieldType.
Variable sq : F -> F.
Variables nn nf1 nw : nat.
Variable d : frame F nn nf1 nw.

(* The two selections, read in parallel, list every pair of consecutive rows of
   the same worker exactly once, and nothing else. *)
Theorem C55_pairs :
  size (rows_l d) = size (rows_r d) /\ uniq (zip (rows_l d) (rows_r d))
  /\ forall r s, ((r, s) \in zip (rows_l d) (rows_r d)) = adjacent d r s.
Proof. exact: pairs_all. Qed.

(* The plug-in component never fails and is the covariance, over those pairs,
   of the effect of the earlier firm with the effect of the later firm. *)
Theorem C55_value (pa : 'cV[F]_nf1 * 'cV[F]_nw) :
  prev_next_fe sq d pa = Base.Ok (cov_prev_next sq d (firm_eff pa.1)).
Proof. exact: prev_next_value. Qed.

(* With homoskedastic errors the corrected component is unbiased for the same
   covariance of the true effects. *)
Theorem C55_unbiased (solver : 'M[F]_nf1 -> 'cV[F]_nf1 -> 'cV[F]_nf1) (Om : finType) (p : Om -> F)
    (eps : Om -> 'I_nn -> F) (psi : 'I_nf1.+1 -> F) (alpha : 'I_nw -> F) s2 k
    (e : size (rows_r d) = size (rows_l d)) :
  positive_weights d -> workers_observed d -> connected d ->
  exact_solver solver (Minv sq d) -> root_ok d sq -> (nf1 + nw < nn)%N ->
  is_dist p -> uncorrelated p eps (fun r => s2 / wgt d r) -> (0 < k)%N ->
  Ex p (fun o => uniform (fun z : {ffun 'I_k -> sgns nf1 nw} => corrected_ho
    (cov_fe sq (prev_half d) (next_half e) (prev_w d) (next_w e)
       (estimate_ols sq d solver (outcome d psi alpha (eps o))))
    (sigma_2_ho sq d solver (exact_trace_sigma_2 sq d) (outcome d psi alpha (eps o)))
    (mean_draws (fun t => trace_ho_cov_draw sq d solver (prev_half d) (next_half e)
       (prev_w d) (next_w e) (signs F (z t).1, signs F (z t).2)))))
  = cov_prev_next sq d psi.
Proof. exact: p_pairs_unbiased. Qed.

End C55.

Print Assumptions C55_pairs.
Print Assumptions C55_value.
Print Assumptions C55_unbiased.

(* Five rows: worker 0 has rows 0-2, worker 1 rows 3-4; rows 2 and 3 are
   neighbours of different workers. *)
Example C55_case :
  adjacent d5 (inord 1) (inord 2) /\ ~~ adjacent d5 (inord 2) (inord 3)
  /\ adjacent d5 (inord 3) (inord 4)
  /\ positive_weights d4 /\ workers_observed d4 /\ connected d4
  /\ exact_solver (@direct 1) (Minv sq4 d4) /\ root_ok d4 sq4
  /\ is_dist (@pn 4) /\ uncorrelated (@pn 4) (epsn c4) (fun r => 1 / wgt d4 r).
Proof.
split; first by rewrite /adjacent /= !inordK.
split; first by rewrite /adjacent /= !inordK.
split; first by rewrite /adjacent /= !inordK.
by do ! split; [exact: d4_pos|exact: d4_obs|exact: d4_con|exact: d4_exact|exact: d4_root
  |exact: (pn_dist 4).1|exact: (pn_dist 4).2|exact: d4_unc.1|exact: d4_unc.2].
Qed.
