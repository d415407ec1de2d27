(* Properties C44 and C64: pytwoway/blm.py, the lower bound on the standard
   deviations and the movers' likelihood over a fit without control variables. *)
From Verif Require Import Base UtilModel UtilSpec ConsModel ConsSpec BLMModel BLMEMModel BLMSpec
  BLMRunModel BLMFitModel BLMFitSpec BLMPropLemmas BLMFitPropLemmas.
From Coq Require Import Sorted.
Local Open Scope res_scope.
Local Open Scope R_scope.

(* ================================================================== C44 *)
(* For s_lower_bound at most 1: if the starting standard deviations respect it
   then so do those of every fit that returns, whatever the data.  Missing: bounds
   above 1, for which the claim is false, and control variables. *)
Theorem C44_bound_partial argsort solver pp nl nk c data :
  (forall l, is_argsort l (argsort l)) -> exact_qp solver ->
  (forall o, In o (cons_on_A c ++ cons_s (other c) ++ cons_s_all (other c)) -> valid 2 nl nk o) ->
  forall compute_NNm min p p' lik liks,
  0 < s_lower_bound (other c) <= 1 ->
  (forall l k, (l < nl)%nat -> (k < nk)%nat ->
     s_lower_bound (other c) <= S1 p l k /\ s_lower_bound (other c) <= S2 p l k) ->
  fit_movers_ argsort solver pp nl nk c compute_NNm min data p = Ok (p', lik, liks) ->
  forall l k, (l < nl)%nat -> (k < nk)%nat ->
    s_lower_bound (other c) <= S1 p' l k /\ s_lower_bound (other c) <= S2 p' l k.
Proof. exact (S_bound argsort solver pp nl nk c data). Qed.
Print Assumptions C44_bound_partial.

(* What the code bounds, for every s_lower_bound, is the variance. *)
Theorem C44_variance argsort solver pp nl nk c data :
  (forall l, is_argsort l (argsort l)) -> exact_qp solver ->
  (forall o, In o (cons_on_A c ++ cons_s (other c) ++ cons_s_all (other c)) -> valid 2 nl nk o) ->
  forall compute_NNm min p p' lik liks,
  0 <= s_lower_bound (other c) ->
  (forall l k, (l < nl)%nat -> (k < nk)%nat ->
     0 <= S1 p l k /\ 0 <= S2 p l k /\
     s_lower_bound (other c) <= S1 p l k ^ 2 /\ s_lower_bound (other c) <= S2 p l k ^ 2) ->
  fit_movers_ argsort solver pp nl nk c compute_NNm min data p = Ok (p', lik, liks) ->
  forall l k, (l < nl)%nat -> (k < nk)%nat ->
    s_lower_bound (other c) <= S1 p' l k ^ 2 /\ s_lower_bound (other c) <= S2 p' l k ^ 2.
Proof. exact (S2_bound argsort solver pp nl nk c data). Qed.
Print Assumptions C44_variance.

(* Refuted: starting above the bound, a fit returns standard deviations below. *)
Theorem C44_refuted :
  exists argsort solver pp nl nk c compute_NNm min data p p' lik liks,
    (forall l, is_argsort l (argsort l)) /\ exact_qp solver /\ movers_data nk data /\
    (forall o, In o (cons_on_A c ++ cons_s (other c) ++ cons_s_all (other c)) -> valid 2 nl nk o) /\
    values_ok nl nk (s_lower_bound (other c)) p /\ 0 < s_lower_bound (other c) /\
    (forall l k, (l < nl)%nat -> (k < nk)%nat ->
       s_lower_bound (other c) <= S1 p l k /\ s_lower_bound (other c) <= S2 p l k) /\
    fit_movers_ argsort solver pp nl nk c compute_NNm min data p = Ok (p', lik, liks) /\
    exists l k, (l < nl)%nat /\ (k < nk)%nat /\
      S1 p' l k < s_lower_bound (other c) /\ S2 p' l k < s_lower_bound (other c).
Proof. exact bound_refuted. Qed.
Print Assumptions C44_refuted.

(* A bound of 1/2, effects bounded below by 0, and a solver meeting its contract
   that solves bounded problems; the fit returns by C64. *)
Example C44_case :
  (forall l, is_argsort l (isort l)) /\ exact_qp box_solver /\
  (forall o, In o (cons_on_A (fit_cfg 1)) -> valid 2 2 2 o) /\
  (forall l k, (l < 2)%nat -> (k < 2)%nat ->
     s_lower_bound (other (fit_cfg 1)) <= S1 gap_par l k /\
     s_lower_bound (other (fit_cfg 1)) <= S2 gap_par l k) /\
  forall a b, 0 < a -> 0 < b ->
    box_solver [a; b] [- 3; 2] (mkproblem 2 (Some (Arr2 (scal_mat (-1) (eye 2)), [0; 0])) None)
    = QSol [Rmax (- 0) (- - 3 / a); Rmax (- 0) (- (2) / b)].
Proof.
  exact (conj isort_ok (conj box_solver_exact (conj (ex_cons_valid 1)
    (conj ex_start_bound box_solves)))).
Qed.

(* ================================================================== C64 *)
(* d_prior_movers = 1, equal weights: the recorded likelihoods followed by the
   likelihood of the parameters returned start at the likelihood of the starting
   values and never fall; lik1 is the last recorded one.  The updates may be any
   of pk1, S, and A with S; A may be constrained, starting from values (with the
   worker types sorted) that satisfy the constraints; the solver may give up. *)
Theorem C64_movers_monotone argsort solver pp nl nk c data compute_NNm min p :
  (forall l, is_argsort l (argsort l)) -> exact_qp solver -> (0 < nl)%nat -> (0 < nk)%nat ->
  movers_data nk data ->
  0 < s_lower_bound (other c) -> d_prior (other c) = 1 ->
  cons_s (other c) = [] -> cons_s_all (other c) = [] ->
  (forall o, In o (cons_on_A c) -> valid 2 nl nk o) ->
  (do_a c = true -> do_s c = true) ->
  (do_pk1 c = true -> all_pairs nk data /\ equal_weights data) ->
  values_ok nl nk (s_lower_bound (other c)) p ->
  (do_a c = true -> A_allowed nl nk c (sort_parameters argsort pp nl nk false false p)) ->
  exists p' lik liks,
    fit_movers_ argsort solver pp nl nk c compute_NNm min data p = Ok (p', lik, liks)
    /\ Sorted Rle (liks ++ [movers_loglik nl nk p' data])
    /\ hd 0 (liks ++ [movers_loglik nl nk p' data]) = movers_loglik nl nk p data
    /\ (length liks <= n_iters (other c))%nat
    /\ (n_iters (other c) <> 0%nat -> lik = Some (last liks 0)).
Proof. exact (monotone_thm argsort solver pp nl nk c data compute_NNm min p). Qed.
Print Assumptions C64_movers_monotone.

(* Any d_prior_movers: what does not fall is the likelihood plus the mean over
   the rows of the prior of their pair of firm types. *)
Theorem C64_penalised argsort solver pp nl nk c data compute_NNm min p :
  (forall l, is_argsort l (argsort l)) -> exact_qp solver -> (0 < nl)%nat -> (0 < nk)%nat ->
  movers_data nk data ->
  0 < s_lower_bound (other c) -> 1 <= d_prior (other c) ->
  cons_s (other c) = [] -> cons_s_all (other c) = [] ->
  (forall o, In o (cons_on_A c) -> valid 2 nl nk o) ->
  (do_a c = true -> do_s c = true) ->
  (do_pk1 c = true -> all_pairs nk data /\ equal_weights data) ->
  values_ok nl nk (s_lower_bound (other c)) p ->
  (do_a c = true -> A_allowed nl nk c (sort_parameters argsort pp nl nk false false p)) ->
  exists p' lik liks,
    fit_movers_ argsort solver pp nl nk c compute_NNm min data p = Ok (p', lik, liks)
    /\ penalised nl nk (d_prior (other c)) p data <= penalised nl nk (d_prior (other c)) p' data.
Proof. exact (penalised_thm argsort solver pp nl nk c data compute_NNm min p). Qed.
Print Assumptions C64_penalised.

(* Refuted for d_prior_movers above 1 with equal weights: the recorded
   likelihoods fall (the first has no prior term, the others do). *)
Theorem C64_prior_refuted :
  exists data p argsort solver pp nl nk c compute_NNm min p' lik liks,
    (forall l, is_argsort l (argsort l)) /\ exact_qp solver /\ (0 < nl)%nat /\ (0 < nk)%nat /\
    movers_data nk data /\ all_pairs nk data /\ equal_weights data /\ d_prior (other c) = 2 /\
    values_ok nl nk (s_lower_bound (other c)) p /\ cons_on_A c = [] /\
    fit_movers_ argsort solver pp nl nk c compute_NNm min data p = Ok (p', lik, liks) /\
    ~ Sorted Rle liks.
Proof. exact (ex_intro _ _ (ex_intro _ _ prior_refuted)). Qed.
Print Assumptions C64_prior_refuted.

(* Refuted for unequal weights even with d_prior_movers = 1: pk1 is updated with
   the weights of the rows, the likelihood does not weight them. *)
Theorem C64_weights_refuted :
  exists data p argsort solver pp nl nk c compute_NNm min p' lik liks,
    (forall l, is_argsort l (argsort l)) /\ exact_qp solver /\ (0 < nl)%nat /\ (0 < nk)%nat /\
    movers_data nk data /\ all_pairs nk data /\ ~ equal_weights data /\ d_prior (other c) = 1 /\
    values_ok nl nk (s_lower_bound (other c)) p /\ cons_on_A c = [] /\
    fit_movers_ argsort solver pp nl nk c compute_NNm min data p = Ok (p', lik, liks) /\
    ~ Sorted Rle liks.
Proof. exact (ex_intro _ _ (ex_intro _ _ weights_refuted)). Qed.
Print Assumptions C64_weights_refuted.

Example C64_case :
  (forall l, is_argsort l (isort l)) /\ exact_qp box_solver /\ movers_data 2 ex_data /\
  all_pairs 2 ex_data /\ equal_weights ex_data /\
  (forall o, In o (cons_on_A (fit_cfg 1)) -> valid 2 2 2 o) /\
  values_ok 2 2 (s_lower_bound (other (fit_cfg 1))) gap_par /\
  A_allowed 2 2 (fit_cfg 1) (sort_parameters isort PFirst 2 2 false false gap_par).
Proof.
  exact (conj isort_ok (conj box_solver_exact (conj ex_movers_data (conj ex_pairs (conj ex_equal
    (conj (ex_cons_valid 1) (conj gap_values (gap_allowed 1)))))))).
Qed.

(* ================================================================== C43 *)
(* The counts a fit stores: entry (a, b) is the number of movers from a to b. *)
Theorem C43_counts argsort solver pp nl nk c min data p p' lik liks :
  fit_movers_ argsort solver pp nl nk c true min data p = Ok (p', lik, liks) ->
  forall a b, NNm p' a b = INR (count_occ pair_dec (map (fun o => (g1 o, g2 o)) data) (a, b)).
Proof. exact (fit_counts argsort solver pp nl nk c min data p p' lik liks). Qed.
Print Assumptions C43_counts.
