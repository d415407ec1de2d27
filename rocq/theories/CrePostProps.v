(* C70: the posterior of the CRE estimator. *)
Set Warnings "-notation-overridden,-ambiguous-paths".
From mathcomp Require Import all_ssreflect all_algebra.
From Verif Require Base.
From Verif Require Import FESpec FECases CrePostModel CrePostSpec CrePostLemmas CrePostPropLemmas.

Set Implicit Arguments.
Unset Strict Implicit.
Unset Printing Implicit Defensive.

Import GRing.Theory Num.Theory Order.POrderTheory.
Local Open Scope ring_scope.

(* The posterior mean minimises the penalised sum of squares and is the only minimiser. *)
Theorem C70_mean (F : realFieldType) nf mn nnq (d : post_data F nf mn nnq) vp ve solve (mu0 : 'cV[F]_nf) x :
  0 < vp -> 0 < ve -> exact_solver solve (M d vp ve) ->
  penalised d vp ve (fun j => mu0 j 0) (fun j => post_psi solve d vp ve mu0 j 0)
  <= penalised d vp ve (fun j => mu0 j 0) x.
Proof. exact (fun a b c => post_minimises a b c mu0 x). Qed.
Print Assumptions C70_mean.

Theorem C70_mean_unique (F : realFieldType) nf mn nnq (d : post_data F nf mn nnq) vp ve solve (mu0 : 'cV[F]_nf) x :
  0 < vp -> 0 < ve -> exact_solver solve (M d vp ve) ->
  penalised d vp ve (fun j => mu0 j 0) x
  <= penalised d vp ve (fun j => mu0 j 0) (fun j => post_psi solve d vp ve mu0 j 0) ->
  forall j, x j = post_psi solve d vp ve mu0 j 0.
Proof. exact (fun a b c => @post_unique _ _ _ _ d vp ve a b solve c mu0 x). Qed.
Print Assumptions C70_mean_unique.

(* The system is never singular, so an exact solver exists. *)
Theorem C70_solvable (F : realFieldType) nf mn nnq (d : post_data F nf mn nnq) vp ve :
  0 < vp -> 0 < ve -> M d vp ve \in unitmx.
Proof. exact (@M_unit F nf mn nnq d vp ve). Qed.
Print Assumptions C70_solvable.

(* Averaged over the draws, the reported number is the variance of the posterior
   means plus n/(n-1) times the rest of the posterior expectation of the variance.
   The claim of C70 is this equation without the factor n/(n-1). *)
Theorem C70_expected_partial (F : realFieldType) nf mn nnq (d : post_data F nf mn nnq) vp ve solve
    (Om : finType) (p : Om -> F) psi (mu0 : 'cV[F]_nf) mu k :
  0 < vp -> 0 < ve -> exact_solver solve (M d vp ve) ->
  posterior d p psi vp ve (fun j => mu0 j 0) mu -> (2 <= nnq)%N -> (0 < k)%N ->
  uniform (fun zs : {ffun 'I_k -> {ffun 'I_nf -> bool}} =>
    posterior_var solve d vp ve mu0 (fun t => signs F (zs t)))
  = cs_var d mu + nnq%:R / (nnq%:R - 1) * (Ex p (fun o => cs_var d (psi o)) - cs_var d mu).
Proof. exact (@post_reported F nf mn nnq d vp ve solve Om p psi mu0 mu k). Qed.
Print Assumptions C70_expected_partial.

(* So it is not the posterior expectation of the variance. *)
Theorem C70_expected_refuted :
  exists (nf mn nnq : nat) (d : post_data rat_realFieldType nf mn nnq) vp ve solve
    (Om : finType) (p : Om -> rat) psi (mu0 : 'cV[rat]_nf) mu,
  0 < vp /\ 0 < ve /\ exact_solver solve (M d vp ve) /\
  posterior d p psi vp ve (fun j => mu0 j 0) mu /\
  forall k, (0 < k)%N ->
  uniform (fun zs : {ffun 'I_k -> {ffun 'I_nf -> bool}} =>
    posterior_var solve d vp ve mu0 (fun t => signs rat_realFieldType (zs t)))
  = Ex p (fun o => cs_var d (psi o)) + 4%:R^-1.
Proof. exact post_refuted. Qed.
Print Assumptions C70_expected_refuted.

Example C70_case : 0 < ex_vp /\ 0 < ex_ve /\ exact_solver (@direct 2) (M post_ex ex_vp ex_ve) /\
  posterior post_ex ex_p ex_psi ex_vp ex_ve (fun j => ex_mu0 j 0) ex_mu.
Proof. exact (conj ex_vp0 (conj ex_ve0 (conj ex_ok ex_posterior))). Qed.
