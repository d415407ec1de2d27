(* Glue for C55. *)
Set Warnings "-notation-overridden,-ambiguous-paths".
From mathcomp Require Import all_ssreflect all_algebra.
From Verif Require Base.
From Verif Require Import FieldTac FEModel FESpec FEPairModel FEPairSpec FEMxLemmas FEPropLemmas FEProp2Lemmas
  FEPairLemmas.

Set Implicit Arguments.
Unset Strict Implicit.
Unset Printing Implicit Defensive.

Import GRing.Theory Num.Theory Order.POrderTheory.
Local Open Scope ring_scope.

Local Notation sgns nf1 nw := ({ffun 'I_nf1 -> bool} * {ffun 'I_nw -> bool})%type.

Lemma p_pairs_unbiased (F : realFieldType) (sq : F -> F) nn nf1 nw (d : frame F nn nf1 nw)
    solver (Om : finType) (p : Om -> F) (eps : Om -> 'I_nn -> F)
    (psi : 'I_nf1.+1 -> F) (alpha : 'I_nw -> F) s2 k (e : size (rows_r d) = size (rows_l d)) :
  positive_weights d -> workers_observed d -> connected d ->
  exact_solver solver (Minv sq d) -> root_ok d sq -> (nf1 + nw < nn)%N ->
  is_dist p -> uncorrelated p eps (fun r => s2 / wgt d r) -> (0 < k)%N ->
  Ex p (fun o => uniform (fun z : {ffun 'I_k -> sgns nf1 nw} => corrected_ho
    (cov_fe sq (prev_half d) (next_half e) (prev_w d) (next_w e)
       (estimate_ols sq d solver (outcome d psi alpha (eps o))))
    (sigma_2_ho sq d solver (exact_trace_sigma_2 sq d) (outcome d psi alpha (eps o)))
    (mean_draws (fun t => trace_ho_cov_draw sq d solver (prev_half d) (next_half e)
       (prev_w d) (next_w e) (signs F (z t).1, signs F (z t).2)))))
  = cov_prev_next sq d psi.
Proof.
move=> pw ob cn ex rok dof dist unc k0.
rewrite -(cov_pairs_true sq e psi alpha pw).
exact: (@p_ho_custom _ _ _ _ _ _ _ pw ob cn rok ex _ _ dist _ psi alpha _ unc dof _ _ _ _ _ k k0).
Qed.
