(* Properties C57-C59: the regression with controls. *)
Set Warnings "-notation-overridden,-ambiguous-paths".
From mathcomp Require Import all_ssreflect all_algebra.
From Verif Require Base.
From Verif Require Import FEModel FESpec FECases FECtlModel FECtlSpec FERegModel FERegSpec
  FERegLemmas FERegPropLemmas FERegSeLemmas FERegCases.

Set Implicit Arguments.
Unset Strict Implicit.
Unset Printing Implicit Defensive.

Import GRing.Theory Num.Theory Order.POrderTheory.
Local Open Scope ring_scope.

Section Props.
Variable F : realFieldType.
Variable sq : F -> F.
Variable N : eqType.
Variables npsi nalpha : N.
Variable d : cdata F N.
Local Notation nn := (c_nn d).
Local Notation k := (n_cov npsi nalpha d).
Variable solver : 'M[F]_k -> 'cV[F]_k -> 'cV[F]_k.
Local Notation estimates Y := (vlist (gamma_hat sq solver Y)).
Local Notation fit_of := (fun Y (r : 'I_nn) => row_fit npsi nalpha d (estimates Y) r).

(* ================================================================== C57 *)
(* No other coefficients fit better, ... *)
Theorem C57_minimises Y g :
  names_ok npsi nalpha d -> ids_ok npsi nalpha d -> c_positive d ->
  consistent solver (AtDpA sq npsi nalpha d) ->
  coefs npsi nalpha d g -> rssr npsi nalpha Y (estimates Y) <= rssr npsi nalpha Y g.
Proof. exact: (fun nok iok pw cs => @r_min _ _ _ _ _ _ _ nok iok pw cs Y g). Qed.

(* ... the residuals are orthogonal to every column of every covariate, ... *)
Theorem C57_orthogonal Y before b after c :
  names_ok npsi nalpha d -> c_positive d -> consistent solver (AtDpA sq npsi nalpha d) ->
  blocks npsi nalpha d = before ++ b :: after -> (c < width b.2)%N ->
  \sum_r cwgt r * column_entry b.2 c r * (r_resid sq solver Y r 0) = 0.
Proof. exact: (fun nok pw cs => @t_orth _ _ _ _ _ _ _ nok pw cs Y before b after c). Qed.

(* ... which are the wages minus the sums of the estimated effects. *)
Theorem C57_residuals Y (r : 'I_nn) :
  names_ok npsi nalpha d -> ids_ok npsi nalpha d ->
  r_resid sq solver Y r 0 = Y r 0 - row_fit npsi nalpha d (estimates Y) r.
Proof. exact: (fun nok iok => @r_fit _ _ _ _ _ _ _ nok iok Y r). Qed.

(* Without collinearity they are the only best coefficients. *)
Theorem C57_unique Y g :
  names_ok npsi nalpha d -> ids_ok npsi nalpha d -> c_positive d ->
  consistent solver (AtDpA sq npsi nalpha d) ->
  identified npsi nalpha d -> coefs npsi nalpha d g ->
  rssr npsi nalpha Y g <= rssr npsi nalpha Y (estimates Y) -> g = estimates Y.
Proof. exact: (fun nok iok pw cs => @r_unique _ _ _ _ _ _ _ nok iok pw cs Y g). Qed.

(* Wages without noise are fitted exactly, and without collinearity the
   coefficients are found. *)
Theorem C57_recovers g :
  names_ok npsi nalpha d -> ids_ok npsi nalpha d -> c_positive d ->
  consistent solver (AtDpA sq npsi nalpha d) -> coefs npsi nalpha d g ->
  let Y := c_outcome npsi nalpha g (fun _ => 0) in
  (forall r : 'I_nn, row_fit npsi nalpha d (estimates Y) r = row_fit npsi nalpha d g r)
  /\ (identified npsi nalpha d -> estimates Y = g).
Proof. exact: (fun nok iok pw cs => @r_recover _ _ _ _ _ _ _ nok iok pw cs g). Qed.

(* ================================================================== C58 *)
Section Noise.
Variable Om : finType.
Variable p : Om -> F.
Variable eps : Om -> 'I_nn -> F.
Variable g : seq F.
Local Notation Y_ o := (c_outcome npsi nalpha g (eps o)).

(* The error variance. *)
Theorem C58_sigma s2 T :
  names_ok npsi nalpha d -> ids_ok npsi nalpha d -> c_positive d ->
  consistent solver (AtDpA sq npsi nalpha d) -> identified npsi nalpha d ->
  is_dist p -> uncorrelated p eps (fun r => s2 / cwgt r) -> coefs npsi nalpha d g ->
  (k < nn)%N -> r_exact_trace_sigma sq npsi nalpha d = Base.Ok T ->
  Ex p (fun o => r_sigma_2_ho sq solver T (Y_ o)) = s2.
Proof. exact: (fun nok iok pw cs id _ unc cg => @r_sigma _ _ _ _ _ _ _ nok iok pw cs id _ p eps g cg s2 T unc). Qed.

(* The analytical trace exists without collinearity and fails with it. *)
Theorem C58_sigma_trace :
  names_ok npsi nalpha d -> ids_ok npsi nalpha d -> c_positive d ->
  (identified npsi nalpha d -> exists T, r_exact_trace_sigma sq npsi nalpha d = Base.Ok T)
  /\ (~ identified npsi nalpha d -> r_exact_trace_sigma sq npsi nalpha d = Base.Err Base.LinAlgError).
Proof.
exact: (fun nok iok pw => conj (fun id => ex_intro _ _ (exact_trace_ok sq nok iok pw id))
  (r_trace_singular sq nok iok pw)).
Qed.

(* Random signs give it on average. *)
Theorem C58_sigma_draws T :
  names_ok npsi nalpha d -> ids_ok npsi nalpha d -> c_positive d ->
  consistent solver (AtDpA sq npsi nalpha d) -> identified npsi nalpha d ->
  r_exact_trace_sigma sq npsi nalpha d = Base.Ok T ->
  uniform (fun b => r_trace_sigma_draw sq solver (signs F b)) = T.
Proof. exact: (fun nok iok pw cs id => @r_tr_draw _ _ _ _ _ _ _ nok iok pw cs id T). Qed.

(* With collinear columns the error variance is too large on average. *)
Theorem C58_collinear_refuted s2 T :
  names_ok npsi nalpha d -> ids_ok npsi nalpha d -> c_positive d ->
  consistent solver (AtDpA sq npsi nalpha d) -> ~ identified npsi nalpha d ->
  is_dist p -> uncorrelated p eps (fun _ => s2) -> coefs npsi nalpha d g -> c_w d = None ->
  (k < nn)%N -> 0 < s2 ->
  s2 < Ex p (fun o => r_sigma_2_ho sq solver T (Y_ o)).
Proof. exact: (fun nok iok pw cs nid dist unc cg ew lt => @r_sigma_collinear _ _ _ _ _ _ _ nok iok pw cs _ p eps g s2 T dist unc cg ew lt nid). Qed.

(* Every corrected variance or covariance of covariates. *)
Theorem C58_ho s2 T n1 n2 kd :
  names_ok npsi nalpha d -> ids_ok npsi nalpha d -> c_positive d ->
  consistent solver (AtDpA sq npsi nalpha d) -> identified npsi nalpha d ->
  is_dist p -> uncorrelated p eps (fun r => s2 / cwgt r) -> coefs npsi nalpha d g ->
  good_names npsi nalpha d n1 -> good_names npsi nalpha d n2 -> c_root_sq_ok d sq ->
  (k < nn)%N -> (0 < kd)%N -> r_exact_trace_sigma sq npsi nalpha d = Base.Ok T ->
  exists (C : 'cV[F]_nn -> F) (H : 'cV[F]_k -> F),
    [/\ forall Y, r_cov sq solver n1 n2 Y = Base.Ok (C Y),
        forall Z, r_trace_ho_draw sq solver n1 n2 Z = Base.Ok (H Z)
      & Ex p (fun o => uniform (fun z : {ffun 'I_kd -> {ffun 'I_k -> bool}} =>
          corrected_ho (C (Y_ o)) (r_sigma_2_ho sq solver T (Y_ o))
                       (mean_draws (fun t => H (signs F (z t))))))
        = c_component npsi nalpha d n1 n2 g].
Proof. exact: (fun nok iok pw cs id dist unc cg g1 g2 rs => @r_ho_sigma _ _ _ _ _ _ _ nok iok pw cs id _ p dist eps g cg n1 n2 g1 g2 rs s2 T kd unc). Qed.

(* The same for any error variances, when their estimates are right on average. *)
Theorem C58_he v (S : Om -> 'I_nn -> F) n1 n2 kd :
  names_ok npsi nalpha d -> ids_ok npsi nalpha d -> c_positive d ->
  consistent solver (AtDpA sq npsi nalpha d) -> identified npsi nalpha d ->
  is_dist p -> uncorrelated p eps v -> coefs npsi nalpha d g ->
  good_names npsi nalpha d n1 -> good_names npsi nalpha d n2 -> c_root_sq_ok d sq ->
  (0 < kd)%N -> (forall r, Ex p (fun o => S o r) = v r) ->
  exists (C : 'cV[F]_nn -> F) (H : ('I_nn -> F) -> 'cV[F]_k -> F),
    [/\ forall Y, r_cov sq solver n1 n2 Y = Base.Ok (C Y),
        forall Si Z, r_trace_he_draw sq solver n1 n2 Si Z = Base.Ok (H Si Z)
      & Ex p (fun o => uniform (fun z : {ffun 'I_kd -> {ffun 'I_k -> bool}} =>
          corrected_he (C (Y_ o)) (mean_draws (fun t => H (S o) (signs F (z t))))))
        = c_component npsi nalpha d n1 n2 g].
Proof. exact: (fun nok iok pw cs id dist unc cg g1 g2 rs => @r_he _ _ _ _ _ _ _ nok iok pw cs id _ p dist eps g cg n1 n2 g1 g2 rs v S kd unc). Qed.

(* The leverages they use are the derivatives of the fitted values. *)
Theorem C58_leverage r h :
  names_ok npsi nalpha d -> ids_ok npsi nalpha d -> c_positive d ->
  consistent solver (AtDpA sq npsi nalpha d) -> identified npsi nalpha d ->
  c_root_ok d sq -> leverage_of fit_of r h ->
  uniform (fun b => r_leverage_draw sq solver (signs F b) r) = h.
Proof. exact: (fun nok iok pw cs id => @r_lev _ _ _ _ _ _ _ nok iok pw cs id r h). Qed.

(* The estimated variance of a row, for any error variances: wages are centred by
   a mean that contains the row, which adds a term ... *)
Theorem C58_sii v (P H : 'I_nn -> F) r :
  names_ok npsi nalpha d -> ids_ok npsi nalpha d -> c_positive d ->
  consistent solver (AtDpA sq npsi nalpha d) -> identified npsi nalpha d ->
  is_dist p -> uncorrelated p eps v -> coefs npsi nalpha d g ->
  (forall s, response_of fit_of r s (H s)) -> H r < 1 -> P r = H r ->
  Ex p (fun o => r_Sii_term sq solver P (Y_ o) r)
  = v r - (cwgt r * v r - \sum_s cwgt s * v s * H s) / ((\sum_s @cwgt _ _ d s) * (1 - H r)).
Proof. exact: (fun nok iok pw cs id => @r_sii_resp _ _ _ _ _ _ _ nok iok pw cs id _ p eps g v P H r). Qed.

(* ... that vanishes when the variances are s2 / weight. *)
Theorem C58_sii_partial s2 (P : 'I_nn -> F) r :
  names_ok npsi nalpha d -> ids_ok npsi nalpha d -> c_positive d ->
  consistent solver (AtDpA sq npsi nalpha d) -> identified npsi nalpha d ->
  is_dist p -> uncorrelated p eps (fun r => s2 / cwgt r) -> coefs npsi nalpha d g ->
  leverage_of fit_of r (P r) -> P r < 1 ->
  Ex p (fun o => r_Sii_term sq solver P (Y_ o) r) = s2 / cwgt r.
Proof. exact: (fun nok iok pw cs id => @r_sii_homo _ _ _ _ _ _ _ nok iok pw cs id _ p eps g s2 P r). Qed.

(* ================================================================== C59 *)
(* The squared standard error of a coefficient, unweighted and not clustered: on
   average (n - k) / n times the squared error of the estimate. *)
Theorem C59_standard s2 before b after :
  names_ok npsi nalpha d -> ids_ok npsi nalpha d -> c_positive d ->
  consistent solver (AtDpA sq npsi nalpha d) -> identified npsi nalpha d ->
  is_dist p -> uncorrelated p eps (fun _ => s2) -> coefs npsi nalpha d g -> c_w d = None ->
  (0 < nn)%N -> blocks npsi nalpha d = before ++ b :: after -> (0 < width b.2)%N ->
  let c := first_col before in
  exists Se : 'cV[F]_nn -> F,
    (forall Y, se_square sq solver b.1 [::] Y = Base.Ok (Se Y))
    /\ nn%:R * Ex p (fun o => Se (Y_ o))
       = (nn%:R - k%:R) * Ex p (fun o => (nth 0 (estimates (Y_ o)) c - nth 0 g c) ^+ 2).
Proof. exact: (fun nok iok pw cs id => @se_dof _ _ _ _ _ _ _ nok iok pw cs id _ p eps g s2 before b after). Qed.
End Noise.

(* Unit weights give the unweighted standard errors. *)
Theorem C59_unit_weights col clusters Y :
  names_ok npsi nalpha d -> ids_ok npsi nalpha d -> identified npsi nalpha d ->
  consistent solver (AtDpA sq npsi nalpha (with_w d None)) ->
  se_square sq (d := with_w d (Some (fun _ => 1))) solver col clusters Y
  = se_square sq (d := with_w d None) solver col clusters Y.
Proof. exact: (fun nok iok id => @se_unit _ _ _ _ _ _ _ nok iok id col clusters Y). Qed.

(* Weights in another unit leave the estimates alone and divide the squared
   standard errors, standard or clustered, by the square of the unit. *)
Theorem C59_scale_refuted (w : nat -> F) (c : F) col clusters Y :
  names_ok npsi nalpha d -> ids_ok npsi nalpha d -> identified npsi nalpha d ->
  (forall r, (r < nn)%N -> 0 < w r) -> 0 < c ->
  consistent solver (AtDpA sq npsi nalpha (with_w d (Some w))) ->
  consistent solver (AtDpA sq npsi nalpha (with_w d (Some (fun r => c * w r)))) ->
  gamma_hat sq (d := with_w d (Some (fun r => c * w r))) solver Y
    = gamma_hat sq (d := with_w d (Some w)) solver Y
  /\ se_square sq (d := with_w d (Some (fun r => c * w r))) solver col clusters Y
     = Base.rmap (fun x => x / c ^+ 2) (se_square sq (d := with_w d (Some w)) solver col clusters Y).
Proof.
exact: (fun nok iok id pw pc cw cc => conj (gh_c nok iok id pw pc cw cc Y)
  (se_c nok iok id pw pc cw cc col clusters Y)).
Qed.
End Props.

(* Without controls the coefficients are those of the estimator without controls. *)
Theorem C57_no_controls (F : realFieldType) (sq : F -> F) (N : eqType) (npsi nalpha : N)
    nn nf1 nw (fr : frame F nn nf1 nw) (solver : 'M[F]_nf1 -> 'cV[F]_nf1 -> 'cV[F]_nf1)
    (csolver : 'M[F]_(n_cov npsi nalpha (plain N fr)) -> 'cV[F]_(n_cov npsi nalpha (plain N fr))
       -> 'cV[F]_(n_cov npsi nalpha (plain N fr))) Y :
  npsi != nalpha -> positive_weights fr -> workers_observed fr -> connected fr ->
  exact_solver solver (Minv sq fr) -> consistent csolver (AtDpA sq npsi nalpha (plain N fr)) ->
  let g := vlist (gamma_hat sq csolver Y) in
  let est := estimate_ols sq fr solver Y in
  (forall j : 'I_nf1.+1, nth 0 (0 :: g) j = firm_eff est.1 j)
  /\ (forall i : 'I_nw, nth 0 g (nf1 + i) = est.2 i 0).
Proof. exact: (fun ne => @no_controls F sq N npsi nalpha nn nf1 nw fr ne solver csolver Y). Qed.

(* With other error variances the estimated variance of a row can be wrong on
   average: two rows of one worker, variances 1 and 4, and 5/2 for the first. *)
Theorem C58_sii_refuted (sq : rat -> rat) (g : seq rat) :
  coefs (0%N : nat_eqType) 1%N d2 g ->
  uncorrelated (@pn 2) (epsn c2) (fun r => if r == 0 then 1 else 4%:R)
  /\ leverage_of (d := d2) (fun Y r => row_fit (0%N : nat_eqType) 1%N d2
       (vlist (gamma_hat sq (@dsolve d2) Y)) r) 0 (1 / 2%:R)
  /\ Ex (@pn 2) (fun o => r_Sii_term sq (@dsolve d2) (fun _ => 1 / 2%:R)
       (c_outcome (0%N : nat_eqType) 1%N (d := d2) g (epsn c2 o)) 0) = 5%:R / 2%:R.
Proof. exact: d2_wrong. Qed.

(* The number under the square root of a clustered standard error can be negative:
   six rows of two firms and two workers with one control, default clusters.  The
   same sum over all pairs of rows with a common firm or worker is positive. *)
Theorem C59_negative_refuted (sq : rat -> rat) :
  se_square sq (@dsolve d6) 2%N [:: 0%N; 1%N] y6 = Base.Ok (- (72%:R / 49%:R))
  /\ \sum_(0 <= r < 6) \sum_(0 <= s < 6 | (c_j d6 r == c_j d6 s) || (c_i d6 r == c_i d6 s))
       (nth 0 E6 r * nth 0 u6 r) * (nth 0 E6 s * nth 0 u6 s) = 72%:R / 49%:R
  /\ (forall r : 'I_6, r_resid sq (@dsolve d6) y6 r 0 = nth 0 E6 r)
  /\ (forall r : 'I_6, (A_mx (0%N : nat_eqType) 1%N d6
       *m r_AAinv sq (@dsolve d6) (unit_vec (0%N : nat_eqType) 1%N d6 3)) r 0 = nth 0 u6 r).
Proof. exact: d6_negative. Qed.

Print Assumptions C57_minimises.
Print Assumptions C57_orthogonal.
Print Assumptions C57_residuals.
Print Assumptions C57_unique.
Print Assumptions C57_recovers.
Print Assumptions C57_no_controls.
Print Assumptions C58_sigma.
Print Assumptions C58_sigma_trace.
Print Assumptions C58_sigma_draws.
Print Assumptions C58_collinear_refuted.
Print Assumptions C58_ho.
Print Assumptions C58_he.
Print Assumptions C58_leverage.
Print Assumptions C58_sii.
Print Assumptions C58_sii_partial.
Print Assumptions C58_sii_refuted.
Print Assumptions C59_standard.
Print Assumptions C59_unit_weights.
Print Assumptions C59_scale_refuted.
Print Assumptions C59_negative_refuted.

(* Concrete cases: six rows, two firms, two workers and a control, not collinear;
   four rows with a control that is constant for every worker, collinear. *)
Example C57_case sq :
  names_ok (0%N : nat_eqType) 1%N d6 /\ ids_ok (0%N : nat_eqType) 1%N d6 /\ c_positive d6
  /\ consistent (@dsolve d6) (AtDpA sq (0%N : nat_eqType) 1%N d6)
  /\ identified (0%N : nat_eqType) 1%N d6 /\ (n_cov (0%N : nat_eqType) 1%N d6 < c_nn d6)%N
  /\ gamma_hat sq (@dsolve d6) y6 = g6.
Proof. exact: d6_case. Qed.

Example C58_case_collinear sq :
  names_ok (0%N : nat_eqType) 1%N dk /\ ids_ok (0%N : nat_eqType) 1%N dk /\ c_positive dk
  /\ consistent (@lsolve _) (AtDpA sq (0%N : nat_eqType) 1%N dk)
  /\ ~ identified (0%N : nat_eqType) 1%N dk /\ (n_cov (0%N : nat_eqType) 1%N dk < c_nn dk)%N
  /\ uncorrelated (@pn 4) (epsn (fun _ => 1)) (fun _ => 1 * 1).
Proof. exact: dk_case. Qed.

Example C58_case :
  good_names (0%N : nat_eqType) 1%N d6 [:: 0%N; 2%N] /\ good_names (0%N : nat_eqType) 1%N d6 [:: 1%N]
  /\ coefs (0%N : nat_eqType) 1%N d6 [:: 5%:R; 1; 2%:R; 3%:R]
  /\ uncorrelated (@pn 6) (epsn (fun _ => 1)) (fun _ => 1 * 1).
Proof. exact: d6_case_names. Qed.
