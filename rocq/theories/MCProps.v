(* Properties C112 and C113: results of MonteCarlo. *)
From Coq Require Import String.
From Verif Require Import Base MCModel MCSpec MCPropLemmas.
Local Open Scope string_scope.
Local Open Scope nat_scope.
Local Open Scope list_scope.

Section C112.
Variables G C : Type.
Variable sim : G -> list simrow * G.
Variable move_to_worker : bool.
Variable moves : list brow -> list brow.
Variable clean : list brow -> res C.
Variable fe : C -> G -> res (list (string * R) * G).
Variable cluster : C -> G -> res (C * G).
Variable cre : C -> G -> res ((R * R) * G).
Variable estimate_bs : bool.
Variable bs_clean : C -> res C.
Variable bs : bool -> C -> res (R * R).
Variable spawned : nat -> G.
Notation monte_carlo := (monte_carlo G C sim move_to_worker moves clean fe cluster cre estimate_bs bs_clean bs spawned).
Notation all_about := (all_about G C sim move_to_worker moves clean fe cluster cre estimate_bs bs_clean bs).

(* C112: the results have these keys, with one value for each simulation. *)
Theorem C112_keys N ncore g res : monte_carlo N ncore g = Ok res ->
  map fst res = ["var(psi)_true"; "var(psi)_fe"; "var(psi)_ho"; "var(psi)_he"; "var(psi)_cre";
                 "cov(psi, alpha)_true"; "cov(psi, alpha)_fe"; "cov(psi, alpha)_ho"; "cov(psi, alpha)_he";
                 "cov(psi, alpha)_cre"] ++
                (if estimate_bs then ["var(psi)_bs1"; "var(psi)_bs2"; "cov(psi, alpha)_bs1"; "cov(psi, alpha)_bs2"] else []) /\
  Forall (fun ex => List.length (snd ex) = N) res.
Proof. exact (mc_shape _ _ _ _ _ _ _ _ _ _ _ _ _ _ _ _ _). Qed.

(* C112, one core: the results number i are all about the same simulated data; each simulation
   starts with the generator as the one before left it. *)
Theorem C112_single N g res : monte_carlo N 1 g = Ok res ->
  exists gs, List.length gs = S N /\ nth_error gs 0 = Some g /\
    forall i, i < N -> exists g1 g2, nth_error gs i = Some g1 /\ nth_error gs (S i) = Some g2 /\ all_about res i g1 g2.
Proof. exact (mc_single _ _ _ _ _ _ _ _ _ _ _ _ _ _ _ _). Qed.

(* C112, several cores: the simulation number i starts with the i-th spawned generator. *)
Theorem C112_parallel N ncore g res : 1 < ncore -> monte_carlo N ncore g = Ok res ->
  forall i, i < N -> exists g', all_about res i (spawned i) g'.
Proof. exact (mc_parallel _ _ _ _ _ _ _ _ _ _ _ _ _ _ _ _ _). Qed.

(* C112: the number of cores above one does not matter, nor the use made of the generator
   after its seeds are spawned. *)
Theorem C112_cores N n m g g' : 1 < n -> 1 < m -> monte_carlo N n g = monte_carlo N m g'.
Proof. exact (mc_cores _ _ _ _ _ _ _ _ _ _ _ _ _ _ _ _ _ _). Qed.

(* C112: asking for more simulations only adds results. *)
Theorem C112_extends N M ncore g res : N <= M -> monte_carlo M ncore g = Ok res ->
  exists res1, monte_carlo N ncore g = Ok res1 /\ extends res1 res.
Proof. exact (mc_extends _ _ _ _ _ _ _ _ _ _ _ _ _ _ _ _ _ _). Qed.

(* C112: if cleaning and the estimators return, and FE reports the six values, so does
   monte_carlo. *)
Theorem C112_returns :
  (forall x, exists c, clean x = Ok c) ->
  (forall c g, exists r g', fe c g = Ok (r, g') /\
     forall e, In e ["var(psi)_fe"; "var(psi)_ho"; "var(psi)_he";
                     "cov(psi, alpha)_fe"; "cov(psi, alpha)_ho"; "cov(psi, alpha)_he"] -> exists v, has r e v) ->
  (forall c g, exists r, cluster c g = Ok r) -> (forall c g, exists r, cre c g = Ok r) ->
  (forall c, exists c', bs_clean c = Ok c') -> (forall b c, exists r, bs b c = Ok r) ->
  forall N ncore g, exists res, monte_carlo N ncore g = Ok res.
Proof. exact (mc_returns _ _ _ _ _ _ _ _ _ _ _ _ _). Qed.
End C112.
Print Assumptions C112_keys.
Print Assumptions C112_single.
Print Assumptions C112_parallel.
Print Assumptions C112_cores.
Print Assumptions C112_extends.
Print Assumptions C112_returns.

(* C112 fails for the comparison with the truth: the true variance is that of all simulated
   observations, not of those the estimators get.  An estimator that returns exactly the
   variance of psi in its data (var(psi)_fe here) is reported as wrong as soon as cleaning
   drops an observation. *)
Theorem C112_refuted : exists res, wit_mc 1 1 = Ok res /\
  let d := fst (wit_sim tt) in
  let kept := filter (fun r => (b_j (m_obs r) <? 2)) d in
  wit_clean (map m_obs d) = Ok (map m_obs kept) /\
  result res "var(psi)_fe" 0 (pop_cov (map m_psi kept) (map m_psi kept)) /\
  ~ result res "var(psi)_true" 0 (pop_cov (map m_psi kept) (map m_psi kept)).
Proof. exact truth_differs. Qed.
Print Assumptions C112_refuted.

(* C113: one plot, of the variance or the covariance, for the estimators on.  With at least one
   simulation nothing raises; simulation i of estimator e is plotted as its difference from
   the truth of the same simulation, and lies within the range. *)
Theorem C113_plots N estimate_bs what on res :
  map fst res = estimators estimate_bs -> Forall (fun ex => List.length (snd ex) = N) res -> 0 < N ->
  In what ["var(psi)"; "cov(psi, alpha)"] -> on <> [] ->
  (forall e, In e on -> In e (["fe"; "ho"; "he"; "cre"] ++ (if estimate_bs then ["bs1"; "bs2"] else []))) ->
  exists diffs rg, differences what on res = Ok diffs /\ plt_range diffs = Ok rg /\ shows rg diffs /\
    Forall2 (fun e x => List.length x = N /\ forall i v t, result res (what ++ "_" ++ e) i v ->
      result res (what ++ "_true") i t -> nth_error x i = Some (v - t)%R) on diffs.
Proof. exact (hist_plots N estimate_bs what on res). Qed.
Print Assumptions C113_plots.

(* Three simulations of the witness above, in turn and in parallel. *)
Example C112_case : (exists res, wit_mc 3 1 = Ok res) /\ (exists res, wit_mc 3 2 = Ok res).
Proof. split; eexists; unfold wit_mc; reflexivity. Qed.
