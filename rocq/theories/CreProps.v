(* C67, C68, C69, C71, C72: the CRE estimator. *)
From Verif Require Import Base CreModel CreSpec CreLemmas CreWithinLemmas CreTotLemmas CrePropLemmas.
Local Open Scope R_scope.

(* ---- C67: cluster means ---- *)
(* The cluster effects minimise the squared residuals of the movers' wage changes,
   whenever spsolve returned a solution of the system it was given. *)
Theorem C67_minimises spsolve nc jd b : clusters_below nc jd -> solved spsolve nc jd ->
  ssr (Afill spsolve nc false jd) jd <= ssr b jd.
Proof. exact (Afill_minimises spsolve nc jd b). Qed.
Print Assumptions C67_minimises.

(* If movers link all clusters, every minimiser is the estimate up to a constant;
   the last cluster has effect zero. *)
Theorem C67_unique spsolve nc jd b : clusters_below nc jd -> solved spsolve nc jd -> all_linked nc jd ->
  ssr b jd <= ssr (Afill spsolve nc false jd) jd ->
  forall k, (k < nc)%nat -> Afill spsolve nc false jd k = b k - b (nc - 1)%nat.
Proof. exact (Afill_unique spsolve nc jd b). Qed.
Print Assumptions C67_unique.

(* Without noise the effects are recovered. *)
Theorem C67_recovery spsolve nc jd a : clusters_below nc jd -> solved spsolve nc jd -> all_linked nc jd ->
  noise_free a jd -> forall k, (k < nc)%nat -> Afill spsolve nc false jd k = a k - a (nc - 1)%nat.
Proof. exact (Afill_recovery spsolve nc jd a). Qed.
Print Assumptions C67_recovery.

(* The system has one solution exactly when movers link all clusters. *)
Theorem C67_linked nc jd : clusters_below nc jd -> (nonsingular (nc - 1) (Mc jd) <-> all_linked nc jd).
Proof. exact (between_linked nc jd). Qed.
Print Assumptions C67_linked.

(* Wages net of the cluster means average zero in each cell of movers and in each
   cluster of stayers. *)
Theorem C67_net_zero A jd sd g1 g2 :
  rsum (map (fun r => m_y1 r + m_y2 r)
    (filter (fun r => (m_g1 r =? g1) && (m_g2 r =? g2))%nat (net_movers false A jd))) = 0 /\
  rsum (map s_y1 (filter (fun r => s_g1 r =? g1)%nat (net_stayers false A sd))) = 0.
Proof. exact (conj (movers_mean_zero A jd g1 g2) (stayers_mean_zero A sd g1)). Qed.
Print Assumptions C67_net_zero.

(* With wo_btw nothing is taken out of the wages. *)
Theorem C67_without_between spsolve nc jd sd :
  let A := Afill spsolve nc true jd in
  (forall k, A k = 0) /\ net_movers true A jd = jd /\ net_stayers true A sd = sd.
Proof.
  exact (conj (wo_btw_zero spsolve nc jd)
    (conj (wo_btw_movers _ jd (wo_btw_zero spsolve nc jd)) (wo_btw_stayers _ sd (wo_btw_zero spsolve nc jd)))).
Qed.
Print Assumptions C67_without_between.

Example C67_case : clusters_below 2 ex_jd /\ solved ex_solve 2 ex_jd /\ all_linked 2 ex_jd /\ noise_free ex_a ex_jd /\
  Afill ex_solve 2 false ex_jd 0 = -2.
Proof.
  split; [exact ex_below|]. split; [exact ex_solved|]. split; [exact ex_linked|]. split.
  - intros r [<-|[<-|[]]]; cbn; ring.
  - unfold Afill, ex_solve, JY, Mc, Yc, Jc. cbn. field.
Qed.

(* ---- C68: leave-out means ---- *)
(* The leave-out mean of a mover is the average over the movers who leave the same
   firm for another cluster (who join the same firm from another cluster). *)
Theorem C68_leave_out_leavers f dm r others : In r dm -> picks (comparable1 r) dm others -> others <> [] ->
  m1j_lo f dm r = average f others.
Proof. exact (m1j_lo_spec f dm r others). Qed.
Print Assumptions C68_leave_out_leavers.

Theorem C68_leave_out_joiners f dm r others : In r dm -> picks (comparable2 r) dm others -> others <> [] ->
  m2j_lo f dm r = average f others.
Proof. exact (m2j_lo_spec f dm r others). Qed.
Print Assumptions C68_leave_out_joiners.

(* Neither the mover nor anybody who goes to the same firm is among them. *)
Theorem C68_excludes cl dm r r' : firm_cluster cl dm -> In r dm -> In r' dm ->
  comparable1 r r' -> r' <> r /\ m_j2 r' <> m_j2 r.
Proof. exact (leave_out_excludes cl dm r r'). Qed.
Print Assumptions C68_excludes.

(* The moments of leavers are sample covariances over exactly the movers with
   somebody to compare to. *)
Theorem C68_moments_leavers dm ds rows lo1 lo2 :
  picks (fun r => exists r', In r' dm /\ comparable1 r r') dm rows ->
  (forall r l, In r dm -> picks (comparable1 r) dm l -> lo1 r = average m_y1 l /\ lo2 r = average m_y2 l) ->
  let m := within_moments dm ds in
  y1m1_y1m1 m = sample_cov m_y1 lo1 rows /\ y2m1_y1m1 m = sample_cov m_y2 lo1 rows /\
  y2m1_y2m1 m = sample_cov m_y2 lo2 rows.
Proof. exact (all_moments1 dm ds rows lo1 lo2). Qed.
Print Assumptions C68_moments_leavers.

Theorem C68_moments_joiners dm ds rows lo1 lo2 :
  picks (fun r => exists r', In r' dm /\ comparable2 r r') dm rows ->
  (forall r l, In r dm -> picks (comparable2 r) dm l -> lo1 r = average m_y1 l /\ lo2 r = average m_y2 l) ->
  let m := within_moments dm ds in
  y1m2_y1m2 m = sample_cov m_y1 lo1 rows /\ y2m2_y1m2 m = sample_cov m_y2 lo1 rows /\
  y2m2_y2m2 m = sample_cov m_y2 lo2 rows.
Proof. exact (all_moments2 dm ds rows lo1 lo2). Qed.
Print Assumptions C68_moments_joiners.

(* The moments of stayers with movers average over all leavers and joiners of the
   firm, but only for the stayers of firms that somebody leaves and somebody joins. *)
Theorem C68_moments_stayers_movers_partial dm ds rows l1 l2 j1 j2 :
  picks (left_and_joined dm) ds rows ->
  (forall r l, picks (fun r' => m_j1 r' = s_j1 r) dm l -> l1 r = average m_y1 l /\ l2 r = average m_y2 l) ->
  (forall r l, picks (fun r' => m_j2 r' = s_j1 r) dm l -> j1 r = average m_y1 l /\ j2 r = average m_y2 l) ->
  let m := within_moments dm ds in
  y1s_y1m1 m = sample_cov s_y1 l1 rows /\ y1s_y2m1 m = sample_cov s_y1 l2 rows /\
  y1s_y1m2 m = sample_cov s_y1 j1 rows /\ y1s_y2m2 m = sample_cov s_y1 j2 rows.
Proof. exact (stayers_movers_moments dm ds rows l1 l2 j1 j2). Qed.
Print Assumptions C68_moments_stayers_movers_partial.

(* The moment of stayers is the covariance of a stayer's wage with the average over
   the other stayers of the firm, but only for the stayers of such firms. *)
Theorem C68_moments_stayers_partial dm ds rows lo :
  picks (fun r => left_and_joined dm r /\
           exists i j r', i <> j /\ nth_error ds i = Some r /\ nth_error ds j = Some r' /\ s_j1 r' = s_j1 r) ds rows ->
  (forall i r l, nth_error ds i = Some r -> picks (fun r' => s_j1 r' = s_j1 r) (remove_at i ds) l -> lo r = average s_y1 l) ->
  y1s_y1s (within_moments dm ds) = sample_cov s_y1 lo rows.
Proof. exact (stayers_moment dm ds rows lo). Qed.
Print Assumptions C68_moments_stayers_partial.

(* It is not the covariance over all stayers with a fellow stayer. *)
Theorem C68_moments_stayers_refuted : exists dm ds rows lo,
  picks (fun r => exists i j r', i <> j /\ nth_error ds i = Some r /\ nth_error ds j = Some r' /\ s_j1 r' = s_j1 r) ds rows /\
  (forall i r l, nth_error ds i = Some r -> picks (fun r' => s_j1 r' = s_j1 r) (remove_at i ds) l -> lo r = average s_y1 l) /\
  y1s_y1s (within_moments dm ds) <> sample_cov s_y1 lo rows.
Proof. exact st_refuted. Qed.
Print Assumptions C68_moments_stayers_refuted.

Example C68_case :
  let dm := [mkmv 1 2 0 1 0 1; mkmv 3 5 0 2 0 2; mkmv 4 7 0 1 0 3] in
  picks (comparable1 (mkmv 1 2 0 1 0 1)) dm [mkmv 3 5 0 2 0 2] /\ m1j_lo m_y1 dm (mkmv 1 2 0 1 0 1) = 3.
Proof.
  assert (K : picks (comparable1 (mkmv 1 2 0 1 0 1)) [mkmv 1 2 0 1 0 1; mkmv 3 5 0 2 0 2; mkmv 4 7 0 1 0 3] [mkmv 3 5 0 2 0 2]).
  { apply picks_out; [intros [_ H]; cbn in H; congruence|].
    apply picks_in; [split; cbn; congruence|].
    apply picks_out; [intros [_ H]; cbn in H; congruence|]. constructor. }
  split; [exact K|]. rewrite (m1j_lo_spec m_y1 _ _ _ (in_eq _ _) K); [|discriminate].
  unfold average. cbn. field.
Qed.

(* ---- C69: within parameters ---- *)
(* If the moments are those of the model, the parameters of movers, the variance of
   firm effects and of the noise in differences are the true ones. *)
Theorem C69_movers_partial P s m : independent_story P s -> population P s m ->
  let w := within_params m in
  cov_Am1Am1 w = cov P (Am s) (Am' s) /\ cov_Am1Psi1 w = cov P (Am s) (psi s) /\
  var_psi_m1 w = cov P (psi s) (psi s) /\
  cov_Am2Am2 w = cov P (Bm s) (Bm' s) /\ cov_Am2Psi2 w = cov P (Bm s) (psi s) /\
  var_psi_m2 w = cov P (psi s) (psi s) /\
  cov_AsAm1 w = cov P (As s) (Am s) /\ cov_AsAm2 w = cov P (As s) (Bm s) /\
  var_psi w = cov P (psi s) (psi s) /\
  var_eps w = cov P (sub (e2 s) (e1 s)) (sub (e2 s) (e1 s)).
Proof. exact (within_good P s m). Qed.
Print Assumptions C69_movers_partial.

(* The covariance of stayers' worker effects with firm effects comes out as twice
   the covariance plus the variance of the firm effects, and the covariance of two
   stayers' effects inherits the error. *)
Theorem C69_stayers_values P s m : independent_story P s -> population P s m ->
  let w := within_params m in
  cov_AsPsi1 w = 2 * cov P (As s) (psi s) + cov P (psi s) (psi s) /\
  cov_AsAs w = cov P (As s) (As' s) - 2 * cov P (As s) (psi s) - 2 * cov P (psi s) (psi s).
Proof. exact (within_stayers P s m). Qed.
Print Assumptions C69_stayers_values.

(* So without any worker effects, a positive covariance and a negative variance of
   the stayers' worker effects are reported. *)
Theorem C69_stayers_refuted : exists P s m,
  independent_story P s /\ population P s m /\
  (forall i, As s i = 0 /\ As' s i = 0) /\ cov P (As s) (psi s) = 0 /\ cov P (As s) (As' s) = 0 /\
  cov_AsPsi1 (within_params m) = 1 /\ cov_AsAs (within_params m) = -2.
Proof. exact within_refuted. Qed.
Print Assumptions C69_stayers_refuted.

(* The error enters the reported within covariance with the share of stayers. *)
Theorem C69_cov_wt_overstated P s m ns mn psis mx Yq : independent_story P s -> population P s m -> (0 < ns + mn)%nat ->
  cov_wt (collect (within_params m) ns mn psis mx Yq) =
  (INR ns * cov P (As s) (psi s) + INR mn * cov P (Am s) (psi s)) / INR (ns + mn)
  + INR ns / INR (ns + mn) * (cov P (As s) (psi s) + cov P (psi s) (psi s)).
Proof. exact (cov_wt_overstated P s m ns mn psis mx Yq). Qed.
Print Assumptions C69_cov_wt_overstated.

(* The totals add what is between the clusters (effects f, worker means g of the rows)
   and what is within them. *)
Theorem C69_totals {X} P s m ns mn (f g : X -> R) rows Yq : independent_story P s -> population P s m -> (0 < ns + mn)%nat ->
  let t := collect (within_params m) ns mn (map f rows) (map g rows) Yq in
  tot_var t = sample_cov f f rows + cov P (psi s) (psi s) /\
  tot_cov t = sample_cov f g rows + cov_wt t.
Proof. exact (totals_add P s m ns mn f g rows Yq). Qed.
Print Assumptions C69_totals.

Example C69_case : independent_story ex_space ex_story /\ population ex_space ex_story (ex_moments ex_space ex_story) /\
  cov ex_space (psi ex_story) (psi ex_story) = 1.
Proof. exact (conj ex_independent (conj (ex_population ex_space ex_story) ex_cov_psi)). Qed.

(* ---- C70: the prior mean of the firm effects ---- *)
(* A firm with movers gets the effect of its cluster. *)
Theorem C70_prior_partial A cl jd j : firm_cluster cl jd ->
  (exists r, In r jd /\ (m_j1 r = j \/ m_j2 r = j)) -> Mud A jd j = A (cl j).
Proof. exact (Mud_spec A cl jd j). Qed.
Print Assumptions C70_prior_partial.

(* A firm seen only with stayers gets 0, the effect of the last cluster, whatever its
   own cluster. *)
Theorem C70_prior_stayers A jd j : (forall r, In r jd -> m_j1 r <> j /\ m_j2 r <> j) -> Mud A jd j = 0.
Proof. exact (Mud_absent A jd j). Qed.
Print Assumptions C70_prior_stayers.

Theorem C70_prior_refuted : exists cl A jd sd j,
  firm_cluster cl jd /\ (exists r, In r sd /\ s_j1 r = j /\ s_g1 r = cl j) /\ Mud A jd j <> A (cl j).
Proof. exact prior_refuted. Qed.
Print Assumptions C70_prior_refuted.

(* ---- C71: totals ---- *)
(* If wages are exactly cluster effects plus worker effects of the cells, the totals
   are the sample variance of the firm effects and their sample covariance with the
   worker effects over the cross section, and nothing is within clusters. *)
Theorem C71_exact spsolve a c d nc jd sd : clusters_below nc jd -> stayers_below nc sd -> all_linked nc jd ->
  solved spsolve nc jd -> exact_wages a c d jd sd ->
  let rows := cross_section sd jd in
  let t := fst (fst (fit spsolve nc false jd sd)) in
  tot_var t = sample_cov (fun x => a (row_cluster x)) (fun x => a (row_cluster x)) rows /\
  tot_cov t = sample_cov (fun x => a (row_cluster x)) (row_worker c d) rows /\
  var_wt t = 0 /\ cov_wt t = 0 /\
  var_y t = pop_var row_wage rows.
Proof. exact (exact_totals spsolve a c d nc jd sd). Qed.
Print Assumptions C71_exact.

(* The total variance of wages is divided by n and the variance of firm effects by
   n - 1: when wages are nothing but firm effects, the two differ. *)
Theorem C71_shares_refuted spsolve a nc jd sd : clusters_below nc jd -> stayers_below nc sd -> all_linked nc jd ->
  solved spsolve nc jd -> exact_wages a (fun _ _ => 0) (fun _ => 0) jd sd ->
  (2 <= length sd + length jd)%nat ->
  let t := fst (fst (fit spsolve nc false jd sd)) in
  let n := INR (length sd + length jd) in
  var_y t = (n - 1) / n * tot_var t.
Proof. exact (var_y_gap spsolve a nc jd sd). Qed.
Print Assumptions C71_shares_refuted.

Example C71_case : clusters_below 2 ex_jd /\ stayers_below 2 ex_sd /\ all_linked 2 ex_jd /\ solved ex_solve 2 ex_jd /\
  exact_wages ex_a ex_c (fun _ => 5) ex_jd ex_sd /\
  tot_var (fst (fst (fit ex_solve 2 false ex_jd ex_sd))) = 4 / 3.
Proof.
  split; [exact ex_below|]. split; [exact ex_sbelow|]. split; [exact ex_linked|]. split; [exact ex_solved|].
  split; [exact ex_exact|].
  rewrite (proj1 (exact_totals _ _ _ _ _ _ _ ex_below ex_sbelow ex_linked ex_solved ex_exact)).
  unfold sample_cov, average. cbn. field.
Qed.

(* ---- C72: shifts of wages ---- *)
(* Adding a number to all wages paid in a cluster changes no within-cluster result. *)
Theorem C72_cluster_shift spsolve b nc jd sd :
  let jd' := map (shift_mover b) jd in
  let sd' := map (shift_stayer b) sd in
  clusters_below nc jd -> stayers_below nc sd -> all_linked nc jd -> solved spsolve nc jd -> solved spsolve nc jd' ->
  let '(t, pw, mom) := fit spsolve nc false jd sd in
  let '(t', pw', mom') := fit spsolve nc false jd' sd' in
  mom' = mom /\ pw' = pw /\ var_wt t' = var_wt t /\ cov_wt t' = cov_wt t.
Proof. exact (shift_all spsolve b nc jd sd). Qed.
Print Assumptions C72_cluster_shift.

(* Adding one number to all wages changes nothing that is reported. *)
Theorem C72_level spsolve b nc jd sd :
  let jd' := map (shift_mover (fun _ => b)) jd in
  let sd' := map (shift_stayer (fun _ => b)) sd in
  clusters_below nc jd -> stayers_below nc sd -> all_linked nc jd -> solved spsolve nc jd -> solved spsolve nc jd' ->
  fst (fst (fit spsolve nc false jd' sd')) = fst (fst (fit spsolve nc false jd sd)).
Proof. exact (level_all spsolve b nc jd sd). Qed.
Print Assumptions C72_level.

Example C72_case : solved ex_solve 2 ex_jd /\
  forall b, solved ex_solve 2 (map (shift_mover b) ex_jd).
Proof. exact (conj ex_solved ex_solved_shift). Qed.
