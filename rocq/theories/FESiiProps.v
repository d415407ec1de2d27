(* Properties C77-C79: the variances of stayers' rows, the leverages they rest
   on, and when leverages are refused. *)
Set Warnings "-notation-overridden,-ambiguous-paths".
From mathcomp Require Import all_ssreflect all_algebra.
From Verif Require Base.
From Verif Require Import FEModel FESpec FESiiSpec FECases FESiiLemmas FELinkLemmas FESiiPropLemmas.

Set Implicit Arguments.
Unset Strict Implicit.
Unset Printing Implicit Defensive.

Import GRing.Theory Num.Theory Order.POrderTheory.
Local Open Scope ring_scope.

Section Props.
Variable F : realFieldType.
Variable sq : F -> F.
Variables nn nf1 nw : nat.
Variable d : frame F nn nf1 nw.
Variable solver : 'M[F]_nf1 -> 'cV[F]_nf1 -> 'cV[F]_nf1.
Local Notation lev r := (hat d (row_root d sq) r r).
Local Notation sgns := ({ffun 'I_nf1 -> bool} * {ffun 'I_nw -> bool})%type.

(* ================================================================== C77 *)
Section Noise.
Variable Om : finType.
Variable p : Om -> F.
Variable eps : Om -> 'I_nn -> F.
Variable psi : 'I_nf1.+1 -> F.
Variable alpha : 'I_nw -> F.
Variable s2 : F.
Local Notation Y_ o := (outcome d psi alpha (eps o)).

(* Firm means: the variance given to every row, mover's or stayer's, is right on
   average when error variances are s2 / weight. *)
Theorem C77_firm_mean (S : Om -> 'I_nn -> F) r :
  positive_weights d -> workers_observed d -> connected d ->
  exact_solver solver (Minv sq d) -> root_ok d sq ->
  is_dist p -> uncorrelated p eps (fun r => s2 / wgt d r) ->
  (forall r, fm d r -> lev r < 1) -> movers_everywhere d ->
  (forall o, estimate_Sii_he sq d solver FirmMean (fun r => lev r) None (Y_ o) = Base.Ok (S o)) ->
  Ex p (fun o => S o r) = s2 / wgt d r.
Proof. exact: (fun pw ob cn ex rok _ unc => @p_firm_mean _ _ _ _ _ _ _ pw ob cn ex rok _ _ eps psi alpha s2 unc S r). Qed.

(* Hence the corrected components are unbiased. *)
Theorem C77_firm_mean_corrected ol or k (S : Om -> 'I_nn -> F) :
  positive_weights d -> workers_observed d -> connected d ->
  exact_solver solver (Minv sq d) -> root_ok d sq -> root_sq_ok d sq ->
  is_dist p -> uncorrelated p eps (fun r => s2 / wgt d r) -> (0 < nn)%N -> (0 < k)%N ->
  (forall r, fm d r -> lev r < 1) -> movers_everywhere d ->
  (forall o, estimate_Sii_he sq d solver FirmMean (fun r => lev r) None (Y_ o) = Base.Ok (S o)) ->
  Ex p (fun o => uniform (fun z : {ffun 'I_k -> sgns} => corrected_he
    (cov_fe sq (get_Q d ol) (get_Q d or) (fw d) (fw d) (estimate_ols sq d solver (Y_ o)))
    (mean_draws (fun t => trace_he_cov_draw sq d solver (get_Q d ol) (get_Q d or) (fw d) (fw d)
       (S o) (signs F (z t).1, signs F (z t).2)))))
  = component d ol or psi alpha.
Proof. exact: (fun pw ob cn ex rok rsq dist unc => @p_firm_mean_corrected _ _ _ _ _ _ _ pw ob cn ex rok _ _ dist eps psi alpha s2 unc rsq ol or k S). Qed.

(* Upper bounds, weighted data: the mean of the variance given to a stayer's row
   of weight w is not s2 / w, ... *)
Theorem C77_upper_bound_weighted_partial w (S : Om -> 'I_nn -> F) r :
  positive_weights d -> workers_observed d -> connected d ->
  exact_solver solver (Minv sq d) -> root_ok d sq ->
  is_dist p -> uncorrelated p eps (fun r => s2 / wgt d r) ->
  fw d = Some w -> stayer_row d r -> wgt d r < worker_weight d r ->
  (forall o, estimate_Sii_he sq d solver UpperBound (fun r => lev r) None (Y_ o) = Base.Ok (S o)) ->
  worker_weight d r <> 1
  /\ Ex p (fun o => S o r)
     = s2 / w r * ((worker_weight d r - w r) / ((worker_weight d r - 1) * w r)).
Proof. exact: (fun pw ob cn ex rok dist unc => @p_upper_weighted _ _ _ _ _ _ _ pw ob cn ex rok _ _ dist eps psi alpha s2 unc w S r). Qed.

(* ... unless the weight is 1. *)
Theorem C77_upper_bound_weighted_refuted w (S : Om -> 'I_nn -> F) r :
  positive_weights d -> workers_observed d -> connected d ->
  exact_solver solver (Minv sq d) -> root_ok d sq ->
  is_dist p -> uncorrelated p eps (fun r => s2 / wgt d r) ->
  fw d = Some w -> stayer_row d r -> wgt d r < worker_weight d r -> s2 != 0 ->
  (forall o, estimate_Sii_he sq d solver UpperBound (fun r => lev r) None (Y_ o) = Base.Ok (S o)) ->
  Ex p (fun o => S o r) = s2 / w r <-> w r = 1.
Proof. exact: (fun pw ob cn ex rok dist unc => @p_upper_weighted_iff _ _ _ _ _ _ _ pw ob cn ex rok _ _ dist eps psi alpha s2 unc w S r). Qed.
End Noise.

(* ================================================================== C78 *)
(* Leverages read from files: the mean of the files, refused from 1 on. *)
Theorem C78_files so files P :
  precomputed_leverages d so files = Base.Ok P ->
  files <> [::]
  /\ (forall r, P r = (\sum_(f <- files) f r) / (size files)%:R)
  /\ (exists r, leverage_used d so r) /\ (forall r, leverage_used d so r -> P r < 1).
Proof. exact: p_levfile. Qed.

Local Notation Pd b r := ((hat d (row_root d sq) *m signs F b) r 0 ^+ 2).
Local Notation Md b r := ((signs F b r 0 - (hat d (row_root d sq) *m signs F b) r 0) ^+ 2).

(* The second moments that enter the non-linearity correction are unbiased. *)
Theorem C78_moments r k :
  positive_weights d -> workers_observed d -> connected d ->
  exact_solver solver (Minv sq d) -> (0 < k)%N ->
  let st (z : {ffun 'I_k -> {ffun 'I_nn -> bool}}) :=
    leverage_approx sq d solver [seq signs F (z t) | t <- enum 'I_k] in
  uniform (fun z => st_P2 (st z) r) = uniform (fun b => Pd b r ^+ 2)
  /\ uniform (fun z => st_M2 (st z) r) = uniform (fun b => Md b r ^+ 2)
  /\ uniform (fun z => st_PM (st z) r) = uniform (fun b => Pd b r * Md b r).
Proof. exact: (fun pw ob cn ex => @p_moments _ _ _ _ _ _ _ pw ob cn ex r k). Qed.

(* What there is to correct: 1 / (1 - Pii) from k draws, to second order, has
   mean (1 + c / k) / (1 - Pii) ... *)
Theorem C78_bias r k :
  positive_weights d -> workers_observed d -> connected d ->
  exact_solver solver (Minv sq d) -> root_ok d sq -> (0 < k)%N -> lev r < 1 ->
  let p := lev r in let m := 1 - lev r in
  (forall x y, y != 0 -> x + y != 0 -> inv_rest x y = taylor2 p m x y + taylor_rest p m x y)
  /\ uniform (fun z : {ffun 'I_k -> {ffun 'I_nn -> bool}} =>
       taylor2 p m (mean_draws (fun t => Pd (z t) r)) (mean_draws (fun t => Md (z t) r)))
     = 1 / m * (1 + (p * uniform (fun b => Md b r ^+ 2) / m
                     - uniform (fun b => Pd b r * Md b r)) / m / k%:R).
Proof. exact: (fun pw ob cn ex rok k0 lt => conj (fun x y => @p_taylor _ _ _ x y (p_rest_neq0 lt)) (@p_order _ _ _ _ _ _ _ pw ob cn ex rok r k k0 lt)). Qed.

(* ... so the factor should be 1 - c / k.  It is 1 - (c + delta) / k. *)
Theorem C78_factor_partial r k (st : lev_stats F nn) P :
  lev r < 1 -> (0 < k)%N -> P r = lev r ->
  st_P2 st r = uniform (fun b => Pd b r ^+ 2) ->
  st_M2 st r = uniform (fun b => Md b r ^+ 2) ->
  st_PM st r = uniform (fun b => Pd b r * Md b r) ->
  let p := lev r in let m := 1 - lev r in
  let c := (p * uniform (fun b => Md b r ^+ 2) / m - uniform (fun b => Pd b r * Md b r)) / m in
  let delta := (2%:R * m * uniform (fun b => Pd b r ^+ 2) - 2%:R * p * uniform (fun b => Md b r ^+ 2)
                + 3%:R * (m - p) * uniform (fun b => Pd b r * Md b r)) / m in
  jla_factor k st P r = 1 - (c + delta) / k%:R.
Proof. exact: p_factor. Qed.

(* ================================================================== C79 *)
(* A row has leverage below 1 exactly if its worker and its firm stay linked
   when the row is left out. *)
Theorem C79_leave_one_out r :
  positive_weights d -> workers_observed d -> connected d -> root_ok d sq ->
  lev r < 1 <-> linked_without d r.
Proof. exact: (fun pw ob cn rok => @p_linked _ _ _ _ _ _ pw ob cn rok r). Qed.

(* Exact leverages are refused exactly if some row that is used is not. *)
Theorem C79_refused so :
  positive_weights d -> workers_observed d -> connected d -> root_ok d sq ->
  (exists r, leverage_used d so r) ->
  (estimate_exact_leverages sq d solver so = Base.Err Base.ValueError
   <-> exists r, leverage_used d so r /\ ~ linked_without d r).
Proof. exact: (fun pw ob cn rok => @p_refused _ _ _ _ _ _ solver pw ob cn rok so). Qed.

(* Approximate leverages are refused too, whatever the signs drawn. *)
Theorem C79_refused_approximate so ndraw (draws : seq 'cV[F]_nn) r :
  positive_weights d -> workers_observed d -> connected d ->
  exact_solver solver (Minv sq d) -> root_ok d sq ->
  draws != [::] -> (forall R2 s, R2 \in draws -> R2 s 0 ^+ 2 = 1) ->
  leverage_used d so r -> ~ linked_without d r ->
  estimate_approximate_leverages sq d solver so ndraw [:: draws] = Base.Err Base.ValueError.
Proof. exact: (fun pw ob cn ex rok => @p_refused_approx _ _ _ _ _ _ _ pw ob cn rok ex so ndraw draws r). Qed.
End Props.

(* C78, the correction: three rows of one worker at one firm, leverages 1/3.
   The first-order bias is 5 / (9 k), the factor removes 8 / (27 k). *)
Theorem C78_factor_refuted :
  let H := hat d3 (row_root d3 sq4) in
  let Pd b := (H *m signs rat_realFieldType b) ord0 0 ^+ 2 in
  let Md b := (signs rat_realFieldType b ord0 0 - (H *m signs rat_realFieldType b) ord0 0) ^+ 2 in
  let st := LevStats (fun _ => 1 / 3%:R) (fun _ => uniform (fun b => Pd b ^+ 2))
              (fun _ => 2%:R / 3%:R) (fun _ => uniform (fun b => Md b ^+ 2))
              (fun _ => uniform (fun b => Pd b * Md b)) in
  (forall r, H r r = 1 / 3%:R)
  /\ (1 / 3%:R * uniform (fun b => Md b ^+ 2) / (2%:R / 3%:R) - uniform (fun b => Pd b * Md b))
       / (2%:R / 3%:R) = 5%:R / 9%:R
  /\ forall k, (0 < k)%N ->
     jla_factor k st (fun r => H r r) ord0 = 1 - 8%:R / 27%:R / k%:R.
Proof. exact: p_factor_refuted. Qed.

Print Assumptions C77_firm_mean.
Print Assumptions C77_firm_mean_corrected.
Print Assumptions C77_upper_bound_weighted_partial.
Print Assumptions C77_upper_bound_weighted_refuted.
Print Assumptions C78_files.
Print Assumptions C78_moments.
Print Assumptions C78_bias.
Print Assumptions C78_factor_partial.
Print Assumptions C78_factor_refuted.
Print Assumptions C79_leave_one_out.
Print Assumptions C79_refused.
Print Assumptions C79_refused_approximate.

(* Concrete cases. *)
Example C77_case :
  (forall o, exists S, estimate_Sii_he sq4 d6 (@direct 1) FirmMean
     (fun r => hat d6 (row_root d6 sq4) r r) None
     (outcome d6 (fun _ => 5%:R) (fun _ => 7%:R) (epsn c6 o)) = Base.Ok S)
  /\ (forall r, fm d6 r -> hat d6 (row_root d6 sq4) r r < 1)
  /\ movers_everywhere d6 /\ stayer_row d6 r5 /\ fm d6 r5 = false
  /\ wgt d6 r5 < worker_weight d6 r5 /\ wgt d6 r5 <> 1
  /\ uncorrelated (@pn 6) (epsn c6) (fun r => 1 / wgt d6 r).
Proof. exact: d6_case. Qed.

Example C78_case : exists P,
  precomputed_leverages d4 FirmMean [:: fun _ => 1 / 4%:R : rat_realFieldType; fun _ => 3%:R / 4%:R]
    = Base.Ok P /\ P ord0 = 1 / 2%:R.
Proof. exact: d4_files. Qed.

(* Leaving out a row of [d6] that belongs to a mover keeps the square linked;
   with firm 1 visited once, it does not. *)
Example C79_case :
  (forall r, fm d6 r -> linked_without d6 r)
  /\ exists r : 'I_3, fm dline r /\ ~ linked_without dline r.
Proof. exact: d6_line. Qed.
