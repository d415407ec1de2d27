(* C50: the values of Sorkin (2018) solve the flow equations, and the comparison
   with firm effects. *)
From Verif Require Import Base SorkinModel SorkinSpec SorkinLemmas SorkinPropLemmas.
Local Open Scope R_scope.

(* If one more iteration is allowed and changes nothing, the firms' values
   balance what every firm gains and loses up to the threshold.  The property
   itself has no such condition: see C50_refuted. *)
Theorem C50_flow_partial rows nf n th V :
  firms_ok rows nf -> 0 <= th < 1 -> fit rows n th = Ok V -> fit rows (S n) th = Ok V ->
  exists v, V = log_values nf v /\ positive nf v /\ sumn nf v = 1
    /\ forall k, (k < nf)%nat ->
         (1 - th) / (1 + th) * outflow rows nf v k <= inflow rows nf v k
         <= (1 + th) / (1 - th) * outflow rows nf v k.
Proof. intro OK. exact (fit_balanced rows nf OK n th V). Qed.
Print Assumptions C50_flow_partial.

Theorem C50_exact rows nf n V :
  firms_ok rows nf -> fit rows n 0 = Ok V -> fit rows (S n) 0 = Ok V ->
  exists v, V = log_values nf v /\ positive nf v /\ sumn nf v = 1 /\ flow_equations rows nf v.
Proof. exact (fit_exact rows nf n V). Qed.
Print Assumptions C50_exact.

(* Every iterate is normalised, whether or not the iteration has converged. *)
Theorem C50_normalised rows nf n th :
  firms_ok rows nf -> (1 <= n)%nat ->
  exists v, fit rows n th = Ok (log_values nf v) /\ positive nf v /\ sumn nf v = 1.
Proof. intro OK. exact (fit_values rows nf OK n th). Qed.
Print Assumptions C50_normalised.

(* The solution the estimator looks for is unique up to a factor. *)
Theorem C50_unique rows nf v w :
  firms_ok rows nf -> strongly_connected rows nf -> positive nf v -> positive nf w ->
  flow_equations rows nf v -> flow_equations rows nf w ->
  exists c, 0 < c /\ forall k, (k < nf)%nat -> v k = c * w k.
Proof. exact (flow_unique rows nf v w). Qed.
Print Assumptions C50_unique.

(* The iteration need not converge: for strongly connected data with a solution
   it goes back and forth for ever, and the values returned after max_iters
   iterations, without a warning, do not solve the equations. *)
Theorem C50_refuted : exists rows nf,
  firms_ok rows nf /\ strongly_connected rows nf
  /\ (exists w, positive nf w /\ sumn nf w = 1 /\ flow_equations rows nf w)
  /\ forall n th, (1 <= n)%nat -> th < 3 / 5 ->
       fit rows n th <> fit rows (S n) th
       /\ exists v, positive nf v /\ fit rows n th = Ok (log_values nf v)
            /\ ~ flow_equations rows nf v.
Proof. exact seesaw_refuted. Qed.
Print Assumptions C50_refuted.

(* Exceptions: no iterations; a firm with the largest number that movers only
   join, or only leave. *)
Theorem C50_no_iterations rows nf th :
  firms_ok rows nf -> fit rows 0 th = Err UnboundLocalError.
Proof. exact (fit_no_iterations rows nf th). Qed.
Print Assumptions C50_no_iterations.

Theorem C50_only_joined rows r n th :
  In r rows -> mv_m r = true ->
  (forall r', In r' rows -> mv_m r' = true -> (mv_from r' < mv_to r)%nat) ->
  fit rows n th = Err IndexError.
Proof. exact (fit_only_joined rows r n th). Qed.
Print Assumptions C50_only_joined.

Theorem C50_only_left rows r n th :
  In r rows -> mv_m r = true -> (1 <= n)%nat ->
  (forall r', In r' rows -> mv_m r' = true -> (mv_to r' < mv_from r)%nat) ->
  fit rows n th = Err ValueError.
Proof. exact (fit_only_left rows r n th). Qed.
Print Assumptions C50_only_left.

(* A firm that no mover joins never gets a finite value. *)
Theorem C50_never_joined rows k n th V :
  (forall r, In r rows -> mv_m r = true -> mv_to r <> k) ->
  fit rows n th = Ok V -> (k < length V)%nat -> nth_error V k = Some None.
Proof. exact (never_joined rows k n th V). Qed.
Print Assumptions C50_never_joined.

(* The comparison with firm effects: psi lists the effects of the firms 0, 1, ...
   with the one of firm 0 normalised to 0, and the estimator's psi_hat is tl psi.
   The value of firm k is paired with the effect of firm k + 1, and that of the
   last firm with the effect of firm 0. *)
Theorem C50_alignment (psi : list R) k :
  (k < length psi)%nat -> nth 0 psi 0 = 0 ->
  nth k (concat_psi (tl psi)) 0 = nth (if (k =? length psi - 1)%nat then 0 else S k) psi 0.
Proof. exact (concat_psi_shift psi k). Qed.
Print Assumptions C50_alignment.

Theorem C50_alignment_refuted : exists psi V : list R,
  nth 0 psi 0 = 0 /\ V = psi /\ corrcoef V psi = 1 /\ attrition_corr (tl psi) V = - (1 / 2).
Proof. exact attrition_refuted. Qed.
Print Assumptions C50_alignment_refuted.

(* A data set on which the iteration stops. *)
Example C50_case_stops : firms_ok settled 2 /\ strongly_connected settled 2
  /\ fit settled 2 0 = Ok [Some (ln (1 / 3)); Some (ln (2 / 3))]
  /\ fit settled 3 0 = Ok [Some (ln (1 / 3)); Some (ln (2 / 3))].
Proof.
  split; [exact settled_ok|]. split; [exact settled_connected|].
  split; apply settled_fit; repeat constructor.
Qed.
Example C50_case_only_joined :
  fit [mkmove true 0 1; mkmove true 0 2] 5 (1 / 10) = Err IndexError.
Proof.
  apply (fit_only_joined _ (mkmove true 0 2)); cbn; auto.
  intros r' [<-|[<-|[]]] _; cbn; repeat constructor.
Qed.
