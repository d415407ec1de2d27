(* Properties C21-C31 and C56: pytwoway/fe.py and pytwoway/Q/Q.py. *)
Set Warnings "-notation-overridden,-ambiguous-paths".
From mathcomp Require Import all_ssreflect all_algebra.
From Verif Require Base.
From Verif Require Import FESiiSpec FESiiLemmas.
From Verif Require Import FEModel FESpec FELsLemmas FEDrawLemmas FEPropLemmas FEProp2Lemmas FECases.

Set Implicit Arguments.
Unset Strict Implicit.
Unset Printing Implicit Defensive.

Import GRing.Theory Num.Theory Order.POrderTheory.
Local Open Scope ring_scope.

(* The sign vectors of one trace draw: one for the firms, one for the workers. *)
Local Notation sgns nf1 nw := ({ffun 'I_nf1 -> bool} * {ffun 'I_nw -> bool})%type.

Section FEProps.
Variable F : realFieldType.
Variable sq : F -> F.
Variables nn nf1 nw : nat.
Variable d : frame F nn nf1 nw.
Variable solver : 'M[F]_nf1 -> 'cV[F]_nf1 -> 'cV[F]_nf1.

(* The estimates and their meaning as effects of all firms and workers. *)
Local Notation est Y := (estimate_ols sq d solver Y).
Local Notation psi_hat Y := (firm_eff (est Y).1).
Local Notation alpha_hat Y := (fun i => (est Y).2 i 0).
Local Notation lev r := (hat d (row_root d sq) r r).

(* ================================================================== C21 *)
Theorem C21_normal_equations Y :
  positive_weights d -> workers_observed d -> exact_solver solver (Minv sq d) ->
  (forall j, firm_eqn d Y (psi_hat Y) (alpha_hat Y) j)
  /\ (forall i, worker_eqn d Y (psi_hat Y) (alpha_hat Y) i).
Proof. exact: (fun pw ob ex => conj (p_firm pw ob ex Y) (p_worker_any sq solver pw ob Y)). Qed.

Theorem C21_minimises Y psi alpha :
  positive_weights d -> workers_observed d -> exact_solver solver (Minv sq d) ->
  ssr d Y (psi_hat Y) (alpha_hat Y) <= ssr d Y psi alpha.
Proof. exact: (fun pw ob ex => p_min pw ob ex Y psi alpha). Qed.

(* On connected data the minimiser with effect 0 for firm 0 is unique. *)
Theorem C21_unique Y psi alpha :
  positive_weights d -> workers_observed d -> exact_solver solver (Minv sq d) ->
  connected d -> ssr d Y psi alpha <= ssr d Y (psi_hat Y) (alpha_hat Y) -> psi ord0 = 0 ->
  (forall j, psi j = psi_hat Y j) /\ (forall i, alpha i = alpha_hat Y i).
Proof. exact: (fun pw ob ex => @p_unique _ _ _ _ _ _ _ pw ob ex Y psi alpha). Qed.

(* The worker equations hold even if the inner solver is inexact. *)
Theorem C21_worker_equations_any_solver Y i :
  positive_weights d -> workers_observed d ->
  worker_eqn d Y (psi_hat Y) (alpha_hat Y) i.
Proof. exact: (fun pw ob => p_worker_any sq solver pw ob Y i). Qed.

(* ================================================================== C22 *)
Theorem C22_recovery psi alpha :
  positive_weights d -> workers_observed d -> exact_solver solver (Minv sq d) ->
  connected d ->
  let Y := outcome d psi alpha (fun _ => 0) in
  (forall j, psi_hat Y j = psi j - psi ord0) /\ (forall i, alpha_hat Y i = alpha i + psi ord0)
  /\ (forall r, attach_psi d (est Y).1 r = psi (fj d r) - psi ord0
        /\ attach_alpha d (est Y).2 r = alpha (fi d r) + psi ord0).
Proof. exact: (fun pw ob ex => @p_recovery _ _ _ _ _ _ _ pw ob ex psi alpha). Qed.

(* The reduced firm system is non-singular on connected data. *)
Theorem C22_nonsingular :
  positive_weights d -> workers_observed d -> connected d -> Minv sq d \in unitmx.
Proof. exact: (@Minv_unit _ sq _ _ _ d). Qed.

(* ================================================================== C23 *)
(* Three blocks are those of the inverse of the normal matrix; the fourth has
   the right diagonal, but an off-diagonal entry (l, k) is too large by one over
   the total weight of worker k (finding 1). *)
Theorem C23_inverse_blocks_partial :
  positive_weights d -> workers_observed d -> connected d ->
  let G := invmx (normal_mx d) in
  normal_mx d \in unitmx
  /\ ulsubmx G = AA_inv_A sq d /\ ursubmx G = AA_inv_B sq d /\ dlsubmx G = AA_inv_C sq d
  /\ (forall k, AA_inv_D sq d k k = drsubmx G k k)
  /\ (forall l k, l != k ->
        AA_inv_D sq d l k - drsubmx G l k = (\sum_(r | fi d r == k) wgt d r)^-1).
Proof. exact: (fun pw ob cn => conj (p_normal_unit sq pw ob cn) (p_blocks sq pw ob cn)). Qed.

(* So the four blocks form the inverse only if there is at most one worker. *)
Theorem C23_inverse_blocks_refuted :
  positive_weights d -> workers_observed d -> connected d ->
  (block_mx (AA_inv_A sq d) (AA_inv_B sq d) (AA_inv_C sq d) (AA_inv_D sq d)
     = invmx (normal_mx d) <-> (nw <= 1)%N).
Proof. exact: (fun pw ob cn => p_blocks_iff sq pw ob cn). Qed.

(* ================================================================== C24 *)
Theorem C24_exact_leverage explicit r :
  positive_weights d -> workers_observed d -> connected d ->
  (explicit = false -> exact_solver solver (Minv sq d)) ->
  leverage_wanted d r -> lev_vec sq d solver explicit r = lev r.
Proof. exact: (fun pw ob cn => @p_lev_vec _ sq _ _ _ d solver pw ob cn explicit r). Qed.

Theorem C24_range r :
  positive_weights d -> workers_observed d -> connected d -> root_ok d sq ->
  0 <= lev r <= 1.
Proof. exact: (fun pw ob cn rok => p_hat_range pw ob cn rok r). Qed.

Theorem C24_sum :
  positive_weights d -> workers_observed d -> connected d -> root_ok d sq ->
  \sum_r lev r = nf1%:R + nw%:R.
Proof. exact: (@p_hat_sum _ sq _ _ _ d). Qed.

(* What the estimator reports, and when it refuses. *)
Theorem C24_reported so P :
  positive_weights d -> workers_observed d -> connected d -> root_ok d sq ->
  estimate_exact_leverages sq d solver so = Base.Ok P ->
  (forall r, leverage_wanted d r -> P r = lev r) /\
  (exists r, leverage_used d so r) /\ (forall r, leverage_used d so r -> 0 <= P r < 1).
Proof. exact: (fun pw ob cn rok => p_lev_ok pw ob cn rok (so := so) (P := P)). Qed.

Theorem C24_refused so :
  positive_weights d -> workers_observed d -> connected d -> root_ok d sq ->
  (exists r, leverage_used d so r) ->
  (estimate_exact_leverages sq d solver so = Base.Err Base.ValueError
   <-> exists r, leverage_used d so r /\ lev r = 1).
Proof. exact: (fun pw ob cn rok => p_lev_err solver pw ob cn rok (so := so)). Qed.

(* ================================================================== C25 *)
Section Noise.
Variable Om : finType.
Variable p : Om -> F.
Variable eps : Om -> 'I_nn -> F.
Variable psi : 'I_nf1.+1 -> F.
Variable alpha : 'I_nw -> F.
Local Notation Y_ o := (outcome d psi alpha (eps o)).

(* Weighted data: the error variance of a row is s2 / weight; unweighted: s2. *)
Theorem C25_sigma_unbiased s2 :
  positive_weights d -> workers_observed d -> connected d ->
  exact_solver solver (Minv sq d) -> root_ok d sq -> (nf1 + nw < nn)%N ->
  is_dist p -> uncorrelated p eps (fun r => s2 / wgt d r) ->
  Ex p (fun o => sigma_2_ho sq d solver (exact_trace_sigma_2 sq d) (Y_ o)) = s2.
Proof. exact: (fun pw ob cn ex rok dof _ unc => @p_sigma _ _ _ _ _ _ _ pw ob cn rok ex _ _ _ psi alpha _ unc dof). Qed.

(* Unweighted data do not use the trace at all. *)
Theorem C25_sigma_unweighted s2 tr :
  positive_weights d -> workers_observed d -> connected d ->
  exact_solver solver (Minv sq d) -> root_ok d sq -> (nf1 + nw < nn)%N ->
  is_dist p -> uncorrelated p eps (fun r => s2 / wgt d r) -> fw d = None ->
  Ex p (fun o => sigma_2_ho sq d solver tr (Y_ o)) = s2.
Proof. exact: (fun pw ob cn ex rok dof _ unc => @p_sigma_unweighted _ _ _ _ _ _ _ pw ob cn rok ex _ _ _ psi alpha _ unc dof tr). Qed.

(* ================================================================== C26 *)
Theorem C26_var_psi s2 :
  positive_weights d -> workers_observed d -> connected d ->
  exact_solver solver (Minv sq d) -> root_ok d sq -> root_sq_ok d sq -> (nf1 + nw < nn)%N ->
  is_dist p -> uncorrelated p eps (fun r => s2 / wgt d r) ->
  exists tr, exact_trace_ho_var sq d (get_Q d VarPsi) (fw d) = Base.Ok tr
  /\ Ex p (fun o => corrected_ho (var_fe (get_Q d VarPsi) (fw d) (est (Y_ o)))
             (sigma_2_ho sq d solver (exact_trace_sigma_2 sq d) (Y_ o)) tr)
     = component d VarPsi VarPsi psi alpha.
Proof. exact: (fun pw ob cn ex rok rsq dof dist unc => @p_ho_var_psi _ _ _ _ _ _ _ pw ob cn rok ex rsq _ _ dist _ psi alpha _ unc dof). Qed.

Theorem C26_cov s2 :
  positive_weights d -> workers_observed d -> connected d ->
  exact_solver solver (Minv sq d) -> root_ok d sq -> root_sq_ok d sq -> (nf1 + nw < nn)%N ->
  is_dist p -> uncorrelated p eps (fun r => s2 / wgt d r) ->
  exists tr, exact_trace_ho_cov sq d (cov_Ql d) (cov_Qr d) (fw d) (fw d) = Base.Ok tr
  /\ Ex p (fun o => corrected_ho (cov_fe sq (cov_Ql d) (cov_Qr d) (fw d) (fw d) (est (Y_ o)))
             (sigma_2_ho sq d solver (exact_trace_sigma_2 sq d) (Y_ o)) tr)
     = component d VarPsi VarAlpha psi alpha.
Proof. exact: (fun pw ob cn ex rok rsq dof dist unc => @p_ho_cov _ _ _ _ _ _ _ pw ob cn rok ex rsq _ _ dist _ psi alpha _ unc dof). Qed.

(* With exact traces var(alpha) is biased upwards by s2 (nw - 1) / (total
   weight): the wrong block of C23 is used. *)
Theorem C26_var_alpha_refuted s2 :
  positive_weights d -> workers_observed d -> connected d ->
  exact_solver solver (Minv sq d) -> root_ok d sq -> root_sq_ok d sq -> (nf1 + nw < nn)%N ->
  is_dist p -> uncorrelated p eps (fun r => s2 / wgt d r) ->
  exists tr, exact_trace_ho_var sq d (get_Q d VarAlpha) (fw d) = Base.Ok tr
  /\ Ex p (fun o => corrected_ho (var_fe (get_Q d VarAlpha) (fw d) (est (Y_ o)))
             (sigma_2_ho sq d solver (exact_trace_sigma_2 sq d) (Y_ o)) tr)
     = component d VarAlpha VarAlpha psi alpha + s2 * ((nw%:R - 1) / \sum_r wgt d r).
Proof. exact: (fun pw ob cn ex rok rsq dof dist unc => @p_ho_var_alpha _ _ _ _ _ _ _ pw ob cn rok ex rsq _ _ dist _ psi alpha _ unc dof). Qed.

(* Approximate traces, averaged over the errors and over k independent draws:
   every pair of named components, hence every named variance and covariance. *)
Theorem C26_approximate_partial s2 ol or k :
  positive_weights d -> workers_observed d -> connected d ->
  exact_solver solver (Minv sq d) -> root_ok d sq -> root_sq_ok d sq -> (nf1 + nw < nn)%N ->
  is_dist p -> uncorrelated p eps (fun r => s2 / wgt d r) -> (0 < k)%N ->
  Ex p (fun o => uniform (fun z : {ffun 'I_k -> sgns nf1 nw} => corrected_ho
    (cov_fe sq (get_Q d ol) (get_Q d or) (fw d) (fw d) (est (Y_ o)))
    (sigma_2_ho sq d solver (exact_trace_sigma_2 sq d) (Y_ o))
    (mean_draws (fun t => trace_ho_cov_draw sq d solver (get_Q d ol) (get_Q d or) (fw d) (fw d)
       (signs F (z t).1, signs F (z t).2)))))
  = component d ol or psi alpha.
Proof. exact: (fun pw ob cn ex rok rsq dof dist unc => @p_ho_draws _ _ _ _ _ _ _ pw ob cn rok ex rsq _ _ dist _ psi alpha _ unc dof ol or k). Qed.

(* Custom Q classes: any two matrices over psi, alpha or both, any weights. *)
Theorem C26_custom_forms s2 q (hl hr : half F nf1 nw q) wl wr k :
  positive_weights d -> workers_observed d -> connected d ->
  exact_solver solver (Minv sq d) -> root_ok d sq -> (nf1 + nw < nn)%N ->
  is_dist p -> uncorrelated p eps (fun r => s2 / wgt d r) -> (0 < k)%N ->
  Ex p (fun o => uniform (fun z : {ffun 'I_k -> sgns nf1 nw} => corrected_ho
    (cov_fe sq hl hr wl wr (est (Y_ o)))
    (sigma_2_ho sq d solver (exact_trace_sigma_2 sq d) (Y_ o))
    (mean_draws (fun t => trace_ho_cov_draw sq d solver hl hr wl wr
       (signs F (z t).1, signs F (z t).2)))))
  = cov_fe sq hl hr wl wr (normalised psi alpha).
Proof. exact: (fun pw ob cn ex rok dof dist unc => @p_ho_custom _ _ _ _ _ _ _ pw ob cn rok ex _ _ dist _ psi alpha _ unc dof q hl hr wl wr k). Qed.

(* ================================================================== C27 *)
(* The claim with the leave-one-out variances in place of the true ones holds
   when the errors are homoskedastic (in the weighted sense) ... *)
Theorem C27_sii_homoskedastic_partial s2 r :
  positive_weights d -> workers_observed d -> connected d ->
  exact_solver solver (Minv sq d) -> root_ok d sq ->
  is_dist p -> uncorrelated p eps (fun r => s2 / wgt d r) -> lev r < 1 ->
  Ex p (fun o => Sii_term sq d solver (fun s => lev s) None (Y_ o) r) = s2 / wgt d r.
Proof. exact: (fun pw ob cn ex rok _ unc lt => @p_Sii_homo _ _ _ _ _ _ _ pw ob cn rok ex _ _ _ psi alpha _ unc s2 r lt (fun=> erefl)). Qed.

Theorem C27_corrected_homoskedastic_partial ol or k so s2 (S : Om -> 'I_nn -> F) :
  positive_weights d -> workers_observed d -> connected d ->
  exact_solver solver (Minv sq d) -> root_ok d sq -> root_sq_ok d sq ->
  is_dist p -> (0 < nn)%N -> (0 < k)%N ->
  uncorrelated p eps (fun r => s2 / wgt d r) ->
  (forall r, lev r < 1) ->
  (forall r, fm d r) \/ (fw d = None /\ so = UpperBound) ->
  (forall o, estimate_Sii_he sq d solver so (fun r => lev r) None (Y_ o) = Base.Ok (S o)) ->
  Ex p (fun o => uniform (fun z : {ffun 'I_k -> sgns nf1 nw} => corrected_he
    (cov_fe sq (get_Q d ol) (get_Q d or) (fw d) (fw d) (est (Y_ o)))
    (mean_draws (fun t => trace_he_cov_draw sq d solver (get_Q d ol) (get_Q d or) (fw d) (fw d)
       (S o) (signs F (z t).1, signs F (z t).2)))))
  = component d ol or psi alpha.
Proof. exact: (fun pw ob cn ex rok rsq dist => @p_he_homo _ _ _ _ _ _ _ pw ob cn rok rsq ex _ _ dist eps psi alpha ol or k so s2 S). Qed.

(* ... and the corrected component is unbiased whenever the variances plugged
   in are unbiased, for arbitrary error variances v. *)
Theorem C27_corrected_partial v ol or k (S : Om -> 'I_nn -> F) :
  positive_weights d -> workers_observed d -> connected d ->
  exact_solver solver (Minv sq d) -> root_sq_ok d sq ->
  is_dist p -> uncorrelated p eps v -> (0 < nn)%N -> (0 < k)%N ->
  (forall r, Ex p (fun o => S o r) = v r) ->
  Ex p (fun o => uniform (fun z : {ffun 'I_k -> sgns nf1 nw} => corrected_he
    (cov_fe sq (get_Q d ol) (get_Q d or) (fw d) (fw d) (est (Y_ o)))
    (mean_draws (fun t => trace_he_cov_draw sq d solver (get_Q d ol) (get_Q d or) (fw d) (fw d)
       (S o) (signs F (z t).1, signs F (z t).2)))))
  = component d ol or psi alpha.
Proof. exact: (fun pw ob cn ex rsq dist unc => @p_he_draws _ _ _ _ _ _ _ pw ob cn ex rsq _ _ dist _ psi alpha _ unc ol or k S). Qed.

(* In general the estimate is off by the second term: the code subtracts the
   sample mean of y, which depends on the error of the row itself. *)
Theorem C27_sii_exact v r :
  positive_weights d -> workers_observed d -> connected d ->
  exact_solver solver (Minv sq d) -> root_ok d sq ->
  is_dist p -> uncorrelated p eps v -> lev r < 1 ->
  Ex p (fun o => Sii_term sq d solver (fun s => lev s) None (Y_ o) r)
  = v r - (\sum_s wgt d s * v s * ((r == s)%:R - (design d *m ls_map d) r s))
          / ((\sum_s wgt d s) * (1 - lev r)).
Proof. exact: (fun pw ob cn ex rok _ unc lt => @p_Sii _ _ _ _ _ _ _ pw ob cn rok ex _ _ _ psi alpha _ unc r lt). Qed.

Theorem C27_corrected_exact v ol or Q k :
  positive_weights d -> workers_observed d -> connected d ->
  exact_solver solver (Minv sq d) -> root_ok d sq -> root_sq_ok d sq ->
  is_dist p -> (0 < nn)%N -> (0 < k)%N -> is_form d ol or Q ->
  uncorrelated p eps v -> (forall r, lev r < 1) ->
  Ex p (fun o => uniform (fun z : {ffun 'I_k -> sgns nf1 nw} => corrected_he
    (cov_fe sq (get_Q d ol) (get_Q d or) (fw d) (fw d) (est (Y_ o)))
    (mean_draws (fun t => trace_he_cov_draw sq d solver (get_Q d ol) (get_Q d or) (fw d) (fw d)
       (Sii_term sq d solver (fun r => lev r) None (Y_ o)) (signs F (z t).1, signs F (z t).2)))))
  = component d ol or psi alpha
    + \sum_r ((ls_map d)^T *m Q *m ls_map d) r r
        * ((\sum_s wgt d s * v s * ((r == s)%:R - (design d *m ls_map d) r s))
           / ((\sum_s wgt d s) * (1 - lev r))).
Proof. exact: (fun pw ob cn ex rok rsq dist => @p_he_bias _ _ _ _ _ _ _ pw ob cn rok rsq ex _ _ dist eps psi alpha ol or Q k v). Qed.
End Noise.

(* The exact trace of var(psi) for given variances S is the one that belongs to
   the variances S / weight: right for unweighted data, ... *)
Theorem C27_exact_trace Q S :
  positive_weights d -> workers_observed d -> connected d ->
  root_ok d sq -> root_sq_ok d sq -> is_form d VarPsi VarPsi Q ->
  exact_trace_he_var sq d (get_Q d VarPsi) (fw d) S
  = Base.Ok (\tr (Q *m (ls_map d *m diag_mx (\row_r (S r / wgt d r)) *m (ls_map d)^T))).
Proof. exact: (fun pw ob cn rok rsq => @p_he_exact_psi _ _ _ _ _ _ pw ob cn rok rsq Q S). Qed.

(* ... and 1 / c of the right one if all weights are c. *)
Theorem C27_exact_trace_weighted_refuted Q S c :
  positive_weights d -> workers_observed d -> connected d ->
  root_ok d sq -> root_sq_ok d sq -> (forall r, wgt d r = c) -> is_form d VarPsi VarPsi Q ->
  (0 < nn)%N ->
  exists t, exact_trace_he_var sq d (get_Q d VarPsi) (fw d) S = Base.Ok t
    /\ c * t = \tr (Q *m (ls_map d *m diag_mx (\row_r S r) *m (ls_map d)^T)).
Proof. exact: (fun pw ob cn rok rsq => @p_he_exact_const _ _ _ _ _ _ pw ob cn rok rsq Q S c). Qed.

(* ================================================================== C28 *)
Theorem C28_ho_trace ol or Q k :
  positive_weights d -> workers_observed d -> connected d ->
  exact_solver solver (Minv sq d) -> root_sq_ok d sq -> is_form d ol or Q -> (0 < k)%N ->
  uniform (fun z : {ffun 'I_k -> sgns nf1 nw} =>
    mean_draws (fun t => trace_ho_cov_draw sq d solver (get_Q d ol) (get_Q d or) (fw d) (fw d)
       (signs F (z t).1, signs F (z t).2)))
  = \tr (Q *m invmx (normal_mx d)).
Proof. exact: (fun pw ob cn ex rsq => @p_ho_trace _ _ _ _ _ _ _ pw ob cn ex rsq ol or Q k). Qed.

Theorem C28_he_trace ol or Q S k :
  positive_weights d -> workers_observed d -> connected d ->
  exact_solver solver (Minv sq d) -> root_sq_ok d sq -> is_form d ol or Q -> (0 < k)%N ->
  uniform (fun z : {ffun 'I_k -> sgns nf1 nw} =>
    mean_draws (fun t => trace_he_cov_draw sq d solver (get_Q d ol) (get_Q d or) (fw d) (fw d)
       S (signs F (z t).1, signs F (z t).2)))
  = \tr (Q *m (ls_map d *m diag_mx (\row_r S r) *m (ls_map d)^T)).
Proof. exact: (fun pw ob cn ex rsq => @p_he_trace _ _ _ _ _ _ _ pw ob cn ex rsq ol or Q S k). Qed.

Theorem C28_sigma_trace k :
  positive_weights d -> workers_observed d -> connected d ->
  exact_solver solver (Minv sq d) -> (0 < k)%N ->
  uniform (fun z : {ffun 'I_k -> {ffun 'I_nn -> bool}} =>
    mean_draws (fun t => trace_sigma_2_draw sq d solver (signs F (z t))))
  = \tr (design d *m invmx (normal_mx d) *m (design d)^T).
Proof. exact: (fun pw ob cn ex => @p_sigma_trace _ _ _ _ _ _ _ pw ob cn ex k). Qed.

(* Hutch++, for any orthonormal factor Q. *)
Theorem C28_hutchpp k (Q : 'M[F]_(nn, k)) :
  positive_weights d -> workers_observed d -> connected d ->
  exact_solver solver (Minv sq d) -> (0 < k)%N -> Q^T *m Q = 1%:M ->
  uniform (fun z : {ffun 'I_k -> {ffun 'I_nn -> bool}} =>
    hutchpp_sigma_2 sq d solver Q (\matrix_(r, c) signs F (z c) r 0))
  = \tr (design d *m invmx (normal_mx d) *m (design d)^T).
Proof. exact: (fun pw ob cn ex => @p_hutch _ _ _ _ _ _ _ pw ob cn ex k Q). Qed.

(* The exact options compute these traces (except for alpha, see C26). *)
Theorem C28_exact_sigma :
  positive_weights d -> workers_observed d -> connected d ->
  exact_trace_sigma_2 sq d = \tr (design d *m invmx (normal_mx d) *m (design d)^T).
Proof. exact: (@p_sigma_exact _ sq _ _ _ d). Qed.

Theorem C28_exact_psi Q :
  positive_weights d -> workers_observed d -> connected d ->
  root_ok d sq -> root_sq_ok d sq -> is_form d VarPsi VarPsi Q ->
  exact_trace_ho_var sq d (get_Q d VarPsi) (fw d) = Base.Ok (\tr (Q *m invmx (normal_mx d))).
Proof. exact: (fun pw ob cn rok rsq => @p_exact_psi _ _ _ _ _ _ pw ob cn rok rsq Q). Qed.

Theorem C28_exact_cov Q :
  positive_weights d -> workers_observed d -> connected d ->
  root_ok d sq -> root_sq_ok d sq -> is_form d VarPsi VarAlpha Q ->
  exact_trace_ho_cov sq d (cov_Ql d) (cov_Qr d) (fw d) (fw d)
  = Base.Ok (\tr (Q *m invmx (normal_mx d))).
Proof. exact: (fun pw ob cn rok rsq => @p_exact_cov _ _ _ _ _ _ pw ob cn rok rsq Q). Qed.

(* Every named component has such a matrix. *)
Theorem C28_form_exists ol or : root_sq_ok d sq -> exists Q, is_form d ol or Q.
Proof. exact: (fun rsq => p_form_exists rsq ol or). Qed.

(* ================================================================== C29 *)
Theorem C29_variances o pa :
  var_fe (get_Q d o) (fw d) pa
  = var_w (wgt d) (row_effect d o (firm_eff pa.1) (fun i => pa.2 i 0)).
Proof. exact: p_var_named. Qed.

Theorem C29_covariance pa :
  root_sq_ok d sq ->
  cov_fe sq (cov_Ql d) (cov_Qr d) (fw d) (fw d) pa
  = cov_w (wgt d) (fun r => firm_eff pa.1 (fj d r)) (fun r => pa.2 (fi d r) 0).
Proof. exact: (fun rsq => p_cov_named rsq pa). Qed.

(* Moving a constant between firm and worker effects changes none of them. *)
Theorem C29_shift o (psi : 'I_nf1.+1 -> F) alpha c :
  positive_weights d -> (0 < nn)%N ->
  var_w (wgt d) (row_effect d o (fun j => psi j + c) (fun i => alpha i - c))
  = var_w (wgt d) (row_effect d o psi alpha).
Proof. exact: p_shift. Qed.

Theorem C29_shift_cov (psi : 'I_nf1.+1 -> F) alpha c :
  positive_weights d -> (0 < nn)%N ->
  cov_w (wgt d) (fun r => psi (fj d r) + c) (fun r => alpha (fi d r) - c)
  = cov_w (wgt d) (fun r => psi (fj d r)) (fun r => alpha (fi d r)).
Proof. exact: p_shift_cov. Qed.

(* ================================================================== C30 *)
Theorem C30_plug_in pa :
  root_sq_ok d sq ->
  var_fe (get_Q d VarPsiPlusAlpha) (fw d) pa
  = var_fe (get_Q d VarPsi) (fw d) pa + var_fe (get_Q d VarAlpha) (fw d) pa
    + 2%:R * cov_fe sq (cov_Ql d) (cov_Qr d) (fw d) (fw d) pa.
Proof. exact: (fun rsq => p_adds rsq pa). Qed.

(* Corrected with exact traces tr(Q V): V = (A'DA)^-1 and sigma^2 (HO), or the
   covariance of the estimates (HE).  By C28 these are also the means of the
   approximate traces. *)
Theorem C30_corrected_ho V Qs Qp Qa Qc pa s2 :
  root_sq_ok d sq -> V^T = V ->
  is_form d VarPsiPlusAlpha VarPsiPlusAlpha Qs -> is_form d VarPsi VarPsi Qp ->
  is_form d VarAlpha VarAlpha Qa -> is_form d VarPsi VarAlpha Qc ->
  corrected_ho (var_fe (get_Q d VarPsiPlusAlpha) (fw d) pa) s2 (\tr (Qs *m V))
  = corrected_ho (var_fe (get_Q d VarPsi) (fw d) pa) s2 (\tr (Qp *m V))
    + corrected_ho (var_fe (get_Q d VarAlpha) (fw d) pa) s2 (\tr (Qa *m V))
    + 2%:R * corrected_ho (cov_fe sq (cov_Ql d) (cov_Qr d) (fw d) (fw d) pa) s2 (\tr (Qc *m V)).
Proof. exact: (fun rsq => @p_adds_corrected _ _ _ _ _ _ rsq V Qs Qp Qa Qc pa s2). Qed.

Theorem C30_corrected_he V Qs Qp Qa Qc pa :
  root_sq_ok d sq -> V^T = V ->
  is_form d VarPsiPlusAlpha VarPsiPlusAlpha Qs -> is_form d VarPsi VarPsi Qp ->
  is_form d VarAlpha VarAlpha Qa -> is_form d VarPsi VarAlpha Qc ->
  corrected_he (var_fe (get_Q d VarPsiPlusAlpha) (fw d) pa) (\tr (Qs *m V))
  = corrected_he (var_fe (get_Q d VarPsi) (fw d) pa) (\tr (Qp *m V))
    + corrected_he (var_fe (get_Q d VarAlpha) (fw d) pa) (\tr (Qa *m V))
    + 2%:R * corrected_he (cov_fe sq (cov_Ql d) (cov_Qr d) (fw d) (fw d) pa) (\tr (Qc *m V)).
Proof. exact: (fun rsq => @p_adds_corrected_he _ _ _ _ _ _ rsq V Qs Qp Qa Qc pa). Qed.

(* ================================================================== C31 *)
Theorem C31_batches so ndraw ncore b batches :
  (0 < ndraw)%N -> batchsize_he true ndraw ncore = Base.Ok b ->
  size batches = ncore -> (forall x, x \in map size batches -> x = b) ->
  same_result (estimate_approximate_leverages sq d solver so ndraw batches)
              (estimate_approximate_leverages sq d solver so ndraw [:: flatten batches]).
Proof. exact: p_batches. Qed.

Theorem C31_uneven ndraw ncore :
  ~~ (ncore %| ndraw)%N -> batchsize_he true ndraw ncore = Base.Err Base.ValueError.
Proof. exact: p_uneven. Qed.

(* ================================================================== C56 *)
Theorem C56_draws r k :
  positive_weights d -> workers_observed d -> connected d ->
  exact_solver solver (Minv sq d) -> root_ok d sq -> (0 < k)%N ->
  uniform (fun z : {ffun 'I_k -> {ffun 'I_nn -> bool}} =>
     st_P (leverage_approx sq d solver [seq signs F (z t) | t <- enum 'I_k]) r) = lev r
  /\ uniform (fun z : {ffun 'I_k -> {ffun 'I_nn -> bool}} =>
     st_M (leverage_approx sq d solver [seq signs F (z t) | t <- enum 'I_k]) r) = 1 - lev r.
Proof. exact: (fun pw ob cn ex rok => @p_lev_draws _ _ _ _ _ _ _ pw ob cn rok ex r k). Qed.

(* The reported leverage of a row from a given list of sign vectors: its share
   of the squared length of (projected part, residual part). *)
Theorem C56_reported (draws : seq 'cV[F]_nn) so ndraw P jla r :
  positive_weights d -> workers_observed d -> connected d ->
  exact_solver solver (Minv sq d) -> root_ok d sq ->
  draws != [::] -> (forall R2, R2 \in draws -> R2 r 0 ^+ 2 = 1) ->
  estimate_approximate_leverages sq d solver so ndraw [:: draws] = Base.Ok (P, jla) ->
  leverage_used d so r ->
  0 <= P r < 1
  /\ P r = (\sum_(R <- draws) (hat d (row_root d sq) *m R) r 0 ^+ 2)
           / (\sum_(R <- draws) ((hat d (row_root d sq) *m R) r 0 ^+ 2
                + (R r 0 - (hat d (row_root d sq) *m R) r 0) ^+ 2)).
Proof. exact: (fun pw ob cn ex rok => @p_reported _ _ _ _ _ _ _ pw ob cn ex draws so ndraw P jla r). Qed.

End FEProps.

(* C27, the general claim: unbalanced data, all noise in one row of leverage
   5/7.  Neither that row's variance estimate nor the corrected var(psi) is
   unbiased. *)
Theorem C27_sii_refuted psi alpha :
  Ex (@pn 5) (fun o => Sii_term sq4 d5 (@direct 1) (fun s => hat d5 (row_root d5 sq4) s s) None
     (outcome d5 psi alpha (epsn c5 o)) ord0) <> c5 ord0 * c5 ord0.
Proof. exact: d5_sii_biased. Qed.

Theorem C27_corrected_refuted psi alpha k :
  (0 < k)%N ->
  Ex (@pn 5) (fun o => uniform (fun z : {ffun 'I_k -> sgns 1 2} => corrected_he
    (cov_fe sq4 (get_Q d5 VarPsi) (get_Q d5 VarPsi) (fw d5) (fw d5)
       (estimate_ols sq4 d5 (@direct 1) (outcome d5 psi alpha (epsn c5 o))))
    (mean_draws (fun t => trace_he_cov_draw sq4 d5 (@direct 1) (get_Q d5 VarPsi)
       (get_Q d5 VarPsi) (fw d5) (fw d5)
       (Sii_term sq4 d5 (@direct 1) (fun r => hat d5 (row_root d5 sq4) r r) None
          (outcome d5 psi alpha (epsn c5 o)))
       (signs rat_realFieldType (z t).1, signs rat_realFieldType (z t).2)))))
  = component d5 VarPsi VarPsi psi alpha + 12%:R / 875%:R.
Proof. exact: d5_corrected_biased. Qed.

Print Assumptions C21_normal_equations.
Print Assumptions C21_minimises.
Print Assumptions C21_unique.
Print Assumptions C21_worker_equations_any_solver.
Print Assumptions C22_recovery.
Print Assumptions C22_nonsingular.
Print Assumptions C23_inverse_blocks_partial.
Print Assumptions C23_inverse_blocks_refuted.
Print Assumptions C24_exact_leverage.
Print Assumptions C24_range.
Print Assumptions C24_sum.
Print Assumptions C24_reported.
Print Assumptions C24_refused.
Print Assumptions C25_sigma_unbiased.
Print Assumptions C25_sigma_unweighted.
Print Assumptions C26_var_psi.
Print Assumptions C26_cov.
Print Assumptions C26_var_alpha_refuted.
Print Assumptions C26_approximate_partial.
Print Assumptions C26_custom_forms.
Print Assumptions C27_sii_homoskedastic_partial.
Print Assumptions C27_corrected_homoskedastic_partial.
Print Assumptions C27_corrected_partial.
Print Assumptions C27_sii_exact.
Print Assumptions C27_corrected_exact.
Print Assumptions C27_exact_trace.
Print Assumptions C27_exact_trace_weighted_refuted.
Print Assumptions C28_ho_trace.
Print Assumptions C28_he_trace.
Print Assumptions C28_sigma_trace.
Print Assumptions C28_hutchpp.
Print Assumptions C28_exact_sigma.
Print Assumptions C28_exact_psi.
Print Assumptions C28_exact_cov.
Print Assumptions C28_form_exists.
Print Assumptions C29_variances.
Print Assumptions C29_covariance.
Print Assumptions C29_shift.
Print Assumptions C29_shift_cov.
Print Assumptions C30_plug_in.
Print Assumptions C30_corrected_ho.
Print Assumptions C30_corrected_he.
Print Assumptions C31_batches.
Print Assumptions C31_uneven.
Print Assumptions C56_draws.
Print Assumptions C56_reported.
Print Assumptions C27_sii_refuted.
Print Assumptions C27_corrected_refuted.

(* ------------------------------------------------------------------ cases *)
Example C21_case (Y : 'cV_4) psi alpha :
  (forall j, firm_eqn d4 Y (firm_eff (estimate_ols sq4 d4 (@direct 1) Y).1)
     (fun i => (estimate_ols sq4 d4 (@direct 1) Y).2 i 0) j)
  /\ ssr d4 Y (firm_eff (estimate_ols sq4 d4 (@direct 1) Y).1)
     (fun i => (estimate_ols sq4 d4 (@direct 1) Y).2 i 0) <= ssr d4 Y psi alpha.
Proof.
split; first exact: (C21_normal_equations _ d4_pos d4_obs d4_exact).1.
exact: (C21_minimises _ _ _ d4_pos d4_obs d4_exact).
Qed.

Example C22_case :
  let Y := outcome d4 (fun j => if j == ord0 then 1 else 3%:R)
             (fun i => if i == ord0 then 10%:R else 20%:R) (fun _ => 0) in
  (estimate_ols sq4 d4 (@direct 1) Y).1 0 0 = 2%:R
  /\ (estimate_ols sq4 d4 (@direct 1) Y).2 ord_max 0 = 21%:R.
Proof.
move=> Y; have [h1 [h2 _]] := C22_recovery (fun j => if j == ord0 then 1 else 3%:R)
  (fun i => if i == ord0 then 10%:R else 20%:R) d4_pos d4_obs d4_exact d4_con.
split; last by rewrite (h2 ord_max).
have := h1 (lift ord0 0); rewrite /firm_eff liftK => ->.
by rewrite eqxx.
Qed.

Example C23_case :
  block_mx (AA_inv_A sq4 d4) (AA_inv_B sq4 d4) (AA_inv_C sq4 d4) (AA_inv_D sq4 d4)
  <> invmx (normal_mx d4).
Proof. by move/(C23_inverse_blocks_refuted sq4 d4_pos d4_obs d4_con). Qed.

Example C24_case :
  \sum_r lev_vec sq4 d4 (@direct 1) true r = 3%:R
  /\ exists P, estimate_exact_leverages sq4 d4 (@direct 1) FirmMean = Base.Ok P.
Proof.
split.
  rewrite (eq_bigr (fun r => hat d4 (row_root d4 sq4) r r)); last first.
    by move=> r _; exact: (C24_exact_leverage (explicit := true) d4_pos d4_obs d4_con).
  by rewrite (C24_sum d4_pos d4_obs d4_con d4_root).
have ne : exists r, leverage_used d4 FirmMean r by exists ord0.
have := C24_refused (@direct 1) d4_pos d4_obs d4_con d4_root ne.
rewrite /estimate_exact_leverages /lev_check; case: existsP => //= _; case: existsP.
  by move=> _ [/(_ erefl) [r [_ h1]] _]; have := d4_lev r; rewrite h1.
by move=> _ _; eexists.
Qed.

Example C25_case :
  Ex (@pn 4) (fun o => sigma_2_ho sq4 d4 (@direct 1) (exact_trace_sigma_2 sq4 d4)
     (outcome d4 (fun _ => 5%:R) (fun _ => 7%:R) (epsn c4 o))) = 1.
Proof. exact: (C25_sigma_unbiased _ _ d4_pos d4_obs d4_con d4_exact d4_root _ (@pn_dist 4) d4_unc). Qed.

Example C26_case psi alpha : exists tr,
  exact_trace_ho_var sq4 d4 (get_Q d4 VarPsi) (fw d4) = Base.Ok tr
  /\ Ex (@pn 4) (fun o => corrected_ho
       (var_fe (get_Q d4 VarPsi) (fw d4) (estimate_ols sq4 d4 (@direct 1) (outcome d4 psi alpha (epsn c4 o))))
       (sigma_2_ho sq4 d4 (@direct 1) (exact_trace_sigma_2 sq4 d4) (outcome d4 psi alpha (epsn c4 o))) tr)
     = component d4 VarPsi VarPsi psi alpha.
Proof.
exact: (C26_var_psi psi alpha d4_pos d4_obs d4_con d4_exact d4_root d4_root2 _ (@pn_dist 4) d4_unc).
Qed.

Example C26_case_alpha psi alpha : exists tr,
  exact_trace_ho_var sq4 d4 (get_Q d4 VarAlpha) (fw d4) = Base.Ok tr
  /\ Ex (@pn 4) (fun o => corrected_ho
       (var_fe (get_Q d4 VarAlpha) (fw d4) (estimate_ols sq4 d4 (@direct 1) (outcome d4 psi alpha (epsn c4 o))))
       (sigma_2_ho sq4 d4 (@direct 1) (exact_trace_sigma_2 sq4 d4) (outcome d4 psi alpha (epsn c4 o))) tr)
     <> component d4 VarAlpha VarAlpha psi alpha.
Proof.
have [tr [e1 e2]] := C26_var_alpha_refuted psi alpha d4_pos d4_obs d4_con d4_exact d4_root d4_root2
  isT (@pn_dist 4) d4_unc.
exists tr; split=> //; rewrite e2 => /eqP; rewrite -subr_eq0 addrC addKr mul1r.
by rewrite /wgt !big_ord_recl big_ord0 /=; vm_compute.
Qed.

Example C27_case psi alpha ol or k : (0 < k)%N ->
  Ex (@pn 4) (fun o => uniform (fun z : {ffun 'I_k -> sgns 1 2} => corrected_he
    (cov_fe sq4 (get_Q d4 ol) (get_Q d4 or) (fw d4) (fw d4)
       (estimate_ols sq4 d4 (@direct 1) (outcome d4 psi alpha (epsn c4 o))))
    (mean_draws (fun t => trace_he_cov_draw sq4 d4 (@direct 1) (get_Q d4 ol) (get_Q d4 or)
       (fw d4) (fw d4)
       (Sii_term sq4 d4 (@direct 1) (fun r => hat d4 (row_root d4 sq4) r r) None
          (outcome d4 psi alpha (epsn c4 o)))
       (signs rat_realFieldType (z t).1, signs rat_realFieldType (z t).2)))))
  = component d4 ol or psi alpha.
Proof.
move=> k0.
have := C27_corrected_homoskedastic_partial (so := FirmMean) (d := d4)
  (S := fun o => Sii_term sq4 d4 (@direct 1) (fun r => hat d4 (row_root d4 sq4) r r) None
          (outcome d4 psi alpha (epsn c4 o))) ol or d4_pos d4_obs d4_con
  d4_exact d4_root d4_root2 (@pn_dist 4) isT k0 d4_unc d4_lev.
apply; [by left|by []].
Qed.

Example C28_case :
  uniform (fun z : {ffun 'I_3 -> {ffun 'I_4 -> bool}} =>
    mean_draws (fun t => trace_sigma_2_draw sq4 d4 (@direct 1) (signs rat_realFieldType (z t))))
  = exact_trace_sigma_2 sq4 d4.
Proof.
rewrite (C28_sigma_trace d4_pos d4_obs d4_con d4_exact) //.
by rewrite (C28_exact_sigma sq4 d4_pos d4_obs d4_con).
Qed.

Example C29_case :
  var_fe (get_Q d4 VarPsi) (fw d4) (const_mx 2%:R, const_mx 7%:R) = 1.
Proof.
rewrite C29_variances /var_w /cov_w /avg_w /row_effect /wgt !big_ord_recl !big_ord0 /=.
have e0 : firm_eff (const_mx 2%:R : 'cV[rat_realFieldType]_1) ord0 = 0 by rewrite /firm_eff unlift_none.
have e1 : firm_eff (const_mx 2%:R : 'cV[rat_realFieldType]_1) ord_max = 2%:R.
  by rewrite (firm_eff_o4 _ true) mxE.
rewrite /o4 /= e0 e1.
by apply/eqP; vm_compute.
Qed.

Example C30_case (pa : 'cV_1 * 'cV_2) : exists Qs Qp Qa Qc,
  corrected_ho (var_fe (get_Q d4 VarPsiPlusAlpha) (fw d4) pa) 3%:R (\tr (Qs *m invmx (normal_mx d4)))
  = corrected_ho (var_fe (get_Q d4 VarPsi) (fw d4) pa) 3%:R (\tr (Qp *m invmx (normal_mx d4)))
    + corrected_ho (var_fe (get_Q d4 VarAlpha) (fw d4) pa) 3%:R (\tr (Qa *m invmx (normal_mx d4)))
    + 2%:R * corrected_ho (cov_fe sq4 (cov_Ql d4) (cov_Qr d4) (fw d4) (fw d4) pa) 3%:R
        (\tr (Qc *m invmx (normal_mx d4))).
Proof.
have [Qs hs] := C28_form_exists VarPsiPlusAlpha VarPsiPlusAlpha d4_root2.
have [Qp hp] := C28_form_exists VarPsi VarPsi d4_root2.
have [Qa ha] := C28_form_exists VarAlpha VarAlpha d4_root2.
have [Qc hc] := C28_form_exists VarPsi VarAlpha d4_root2.
exists Qs, Qp, Qa, Qc; apply: (C30_corrected_ho _ _ d4_root2 _ hs hp ha hc).
exact: FEExpLemmas.Gsym.
Qed.

Example C31_case (a b c e : 'cV_4) :
  same_result
    (estimate_approximate_leverages sq4 d4 (@direct 1) FirmMean 4 [:: [:: a; b]; [:: c; e]])
    (estimate_approximate_leverages sq4 d4 (@direct 1) FirmMean 4 [:: [:: a; b; c; e]]).
Proof.
apply: (C31_batches sq4 d4 (@direct 1) FirmMean (ndraw := 4) (ncore := 2) (b := 2)
  (batches := [:: [:: a; b]; [:: c; e]])) => // x.
by rewrite !inE => /orP [/eqP ->|/eqP ->].
Qed.

Example C56_case r :
  uniform (fun z : {ffun 'I_5 -> {ffun 'I_4 -> bool}} =>
     st_P (leverage_approx sq4 d4 (@direct 1) [seq signs rat_realFieldType (z t) | t <- enum 'I_5]) r)
  = hat d4 (row_root d4 sq4) r r.
Proof. exact: (C56_draws r d4_pos d4_obs d4_con d4_exact d4_root (k := 5) isT).1. Qed.
