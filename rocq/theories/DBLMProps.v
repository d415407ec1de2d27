(* Properties C86 to C91: pytwoway/blm_dynamic.py, the estimator of the dynamic BLM
   model without control variables (fit_movers, fit_stayers). *)
From Verif Require Import Base UtilModel UtilSpec ConsModel ConsSpec BLMModel BLMEMModel BLMSpec
  BLMPropLemmas BLMFitModel DBLMModel DBLMSpec DBLMEMSpec DBLMSortLemmas DBLMLikLemmas
  DBLMEM2Lemmas DBLMPropLemmas.
From Coq Require Import Sorted.
Local Open Scope R_scope.

(* ================================================================== C86 *)
(* Sorting gives the worker types (and firm types, if asked) new names, nothing
   else: the mean effects of the primary period come out in order, and the
   likelihoods of movers and stayers stay what they were for data with the new
   names. *)
Theorem C86_sort argsort pp nl nk (sf reverse : bool) p :
  (forall l, is_argsort l (argsort l)) ->
  let p' := dsort_parameters argsort pp nl nk sf reverse p in
  exists s t, relabelling nl s /\ relabelling nk t
    /\ (sf = false -> forall k, t k = k)
    /\ drelabelled nl nk s t p p'
    /\ ordered reverse nl (worker_mean pp nk (dA p' T12) (dA p' T43))
    /\ (sf = true -> ordered reverse nk (firm_mean pp nl (dA p' T12) (dA p' T43)))
    /\ forall data data', Forall2 (dsame_row nk t) data data' ->
         dmovers_loglik nl nk p' data' = dmovers_loglik nl nk p data /\
         dstayers_loglik nl p' data' = dstayers_loglik nl p data.
Proof. exact (sort_thm argsort pp nl nk sf reverse p). Qed.
Print Assumptions C86_sort.
Example C86_case :
  exists s t, relabelling 2 s /\ relabelling 2 t /\
    drelabelled 2 2 s t v_par (dsort_parameters isort PFirst 2 2 true true v_par).
Proof.
  destruct (C86_sort isort PFirst 2 2 true true v_par isort_ok) as (s & t & H1 & H2 & _ & H3 & _).
  now exists s, t.
Qed.

(* ================================================================== C87 *)
(* The E-step.  For movers with positive proportions and standard deviations the
   table lp of an iteration yields the mean log-likelihood of the mixture of
   normal wage paths, and Bayes' posterior probabilities of the worker types. *)
Theorem C87_movers nl nk p data :
  (0 < nl)%nat -> (forall o, In o data -> dmover_ok nl nk p o) ->
  exists lp, dlp_movers nl nk p data = Ok lp
    /\ mean_lse lp = Ok (dmovers_loglik nl nk p data)
    /\ posteriors lp = Ok (map (fun o => map (mover_posterior nl nk p o) (range nl)) data).
Proof. exact (dlp_movers_spec nl nk p data). Qed.
Print Assumptions C87_movers.
Theorem C87_stayers nl nk p data :
  (0 < nl)%nat -> (forall o, In o data -> dstayer_ok nl nk p o) ->
  exists st lp, dlp_stable nl nk p data = Ok st /\ dlp_stayers nl nk p st data = Ok lp
    /\ mean_lse lp = Ok (dstayers_loglik nl p data)
    /\ posteriors lp = Ok (map (fun o => map (stayer_posterior nl p o) (range nl)) data).
Proof. exact (dlp_stayers_spec nl nk p data). Qed.
Print Assumptions C87_stayers.

(* A whole fit of the movers: from the parameters, with worker types sorted, at
   most n_iters iterations as described by mover_step; the likelihoods listed are
   those of the successive parameters; then the types are sorted again. *)
Theorem C87_fit_movers argsort solver pp nl nk c compute_NNm data p :
  (forall l, is_argsort l (argsort l)) -> dexact solver -> (0 < nl)%nat ->
  dcons_valid (nt_movers c) nl nk c -> 0 < ds_lower_bound c -> 1 <= dd_prior c ->
  (up_pk1 c = true -> dall_pairs nk data) ->
  (forall o, In o data -> dmover_ok nl nk p o) ->
  b_absent nk (endogeneity c) (state_dependence c) (dAb p) ->
  b_absent nk (endogeneity c) (state_dependence c) (dSb p) ->
  exists s0 p0 p1 s1 p2 lik ls,
    relabelling nl s0 /\ drelabelled nl nk s0 (fun k => k) p p0 /\
    mover_path solver nl nk c data (dn_iters c) 0 None p0 ls p1 /\
    relabelling nl s1 /\ drelabelled nl nk s1 (fun k => k) p1 p2 /\
    ordered false nl (worker_mean pp nk (dA p2 T12) (dA p2 T43)) /\
    dfit_movers argsort solver pp nl nk c compute_NNm data p
      = Ok (if compute_NNm then dset_NNm (dmover_counts data) p2 else p2, lik, ls) /\
    lik = match rev ls with [] => None | l :: _ => Some l end.
Proof. exact (fit_movers_thm argsort solver pp nl nk c compute_NNm data p). Qed.
Print Assumptions C87_fit_movers.
Example C87_case :
  exists p' lik ls, dfit_movers isort ideal_solver PFirst 2 2 v_set true v_data v_par = Ok (p', lik, ls).
Proof.
  destruct (C87_fit_movers isort ideal_solver PFirst 2 2 v_set true v_data v_par isort_ok ideal_exact)
    as (_ & _ & _ & _ & p2 & lik & ls & _ & _ & _ & _ & _ & _ & E & _);
    [lia|apply v_valid|cbn [v_set ds_lower_bound]; lra|cbn [v_set dd_prior]; lra|
     intros _; exact v_pairs|exact v_movers|apply v_absent|apply v_absent|].
  rewrite E. eexists _, lik, ls. reflexivity.
Qed.
Theorem C87_fit_stayers argsort solver nl nk c compute_NNs data p :
  (forall l, is_argsort l (argsort l)) -> dexact solver -> (0 < nl)%nat ->
  dcons_valid 2 nl nk c -> 0 < ds_lower_bound c -> 1 <= dd_prior_stayers c ->
  (up_pk0 c = true -> dall_firms nk data) -> (forall o, In o data -> dstayer_ok nl nk p o) ->
  exists q lik ls, dfit_stayers argsort solver nl nk c compute_NNs data p
      = Ok (if compute_NNs then dset_NNs (dstayer_counts data) q else q, lik, ls) /\
    stayer_path solver nl nk c data (dn_iters_stayers c) 0 None p ls q /\
    lik = match rev ls with [] => None | l :: _ => Some l end.
Proof.
  exact (fun Ha He Hn Hv Hl Hd Hf Hp =>
    fit_stayers_path argsort Ha solver He nl nk c data Hn Hv Hl Hd Hf compute_NNs p Hp).
Qed.
Print Assumptions C87_fit_stayers.
Example C87_case_stayers :
  exists p' lik ls, dfit_stayers isort ideal_solver 2 2 v_set true v_data v_par = Ok (p', lik, ls).
Proof.
  destruct (C87_fit_stayers isort ideal_solver 2 2 v_set true v_data v_par isort_ok ideal_exact)
    as (p2 & lik & ls & E & _);
    [lia|apply v_valid|cbn [v_set ds_lower_bound]; lra|cbn [v_set dd_prior_stayers]; lra|
     intros _; exact v_firms|exact v_stayers|].
  rewrite E. eexists _, lik, ls. reflexivity.
Qed.

(* When proportions are updated, a pair of firm types without movers (a firm type
   without stayers) makes the fit raise ValueError in the first iteration. *)
Theorem C87_unobserved_movers argsort solver pp nl nk c compute_NNm data p k1 k2 :
  (forall l, is_argsort l (argsort l)) -> (0 < nl)%nat -> dcons_valid (nt_movers c) nl nk c ->
  up_pk1 c = true -> (0 < dn_iters c)%nat -> (forall o, In o data -> dmover_ok nl nk p o) ->
  (k1 < nk)%nat -> (k2 < nk)%nat -> (forall o, In o data -> ~ (dg1 o = k1 /\ dg4 o = k2)) ->
  dfit_movers argsort solver pp nl nk c compute_NNm data p = Err ValueError.
Proof. exact (unobserved_movers argsort solver pp nl nk c compute_NNm data p k1 k2). Qed.
Print Assumptions C87_unobserved_movers.
Theorem C87_unobserved_stayers argsort solver nl nk c compute_NNs data p k :
  (forall l, is_argsort l (argsort l)) -> (0 < nl)%nat -> dcons_valid 2 nl nk c ->
  up_pk0 c = true -> (0 < dn_iters_stayers c)%nat -> (forall o, In o data -> dstayer_ok nl nk p o) ->
  (k < nk)%nat -> (forall o, In o data -> dg1 o <> k) ->
  dfit_stayers argsort solver nl nk c compute_NNs data p = Err ValueError.
Proof. exact (unobserved_stayers argsort solver nl nk c compute_NNs data p k). Qed.
Print Assumptions C87_unobserved_stayers.
Example C87_case_unobserved :
  dfit_movers isort ideal_solver PFirst 2 2 v_set true (skipn 1 v_data) v_par = Err ValueError.
Proof.
  apply (C87_unobserved_movers isort ideal_solver PFirst 2 2 v_set true (skipn 1 v_data) v_par 0 0);
    try (exact isort_ok); try lia; try reflexivity; try apply v_valid.
  - cbn [v_set dn_iters]. lia.
  - intros o Ho. apply v_movers. now right.
  - intros o [<-|[<-|[<-|[]]]]; cbn [dg1 dg4]; intros []; discriminate.
Qed.

(* ================================================================== C88 *)
(* In an iteration that updates effects, the new ones are those allowed by the
   constraints that fit the wages best, each wage weighted with the posterior
   probability of the type over the standard deviation; or the solver gave up and
   they stay.  A solver that finds a solution when there is one gives the best. *)
Theorem C88_movers argsort solver nl nk c data iter p :
  (forall l, is_argsort l (argsort l)) -> dexact solver -> (0 < nl)%nat -> 0 < ds_lower_bound c ->
  dcons_valid (nt_movers c) nl nk c -> 1 <= dd_prior c -> (up_pk1 c = true -> dall_pairs nk data) ->
  (forall o, In o data -> dmover_ok nl nk p o) ->
  b_absent nk (endogeneity c) (state_dependence c) (dAb p) ->
  b_absent nk (endogeneity c) (state_dependence c) (dSb p) ->
  up_a c = true -> rho_turn c iter = false ->
  exists cons p', dgen_constraints nl nk c true = Ok cons /\
    dem_update argsort solver nl nk c iter cons data
      (map (fun o => map (mover_posterior nl nk p o) (range nl)) data) p = Ok (p', cons) /\
    (dA p' = dA p /\ dAb p' = dAb p \/ A_optimal nl nk c data p (dA p') (dAb p')) /\
    (dcomplete solver -> (exists A Ab, A_optimal nl nk c data p A Ab) ->
     A_optimal nl nk c data p (dA p') (dAb p')).
Proof. exact (effects_movers argsort solver nl nk c data iter p). Qed.
Print Assumptions C88_movers.
Example C88_case : exists cons p',
  dem_update isort ideal_solver 2 2 v_set 0 cons v_data
    (map (fun o => map (mover_posterior 2 2 v_par o) (range 2)) v_data) v_par = Ok (p', cons).
Proof.
  destruct (C88_movers isort ideal_solver 2 2 v_set v_data 0 v_par isort_ok ideal_exact)
    as (cons & p' & _ & E & _);
    [lia|cbn [v_set ds_lower_bound]; lra|apply v_valid|cbn [v_set dd_prior]; lra|
     intros _; exact v_pairs|exact v_movers|apply v_absent|apply v_absent|reflexivity|reflexivity|].
  now exists cons, p'.
Qed.
Theorem C88_stayers argsort solver nl nk c data iter p :
  (forall l, is_argsort l (argsort l)) -> dexact solver -> (0 < nl)%nat -> 0 < ds_lower_bound c ->
  dcons_valid 2 nl nk c -> 1 <= dd_prior_stayers c -> (up_pk0 c = true -> dall_firms nk data) ->
  (forall o, In o data -> dstayer_ok nl nk p o) -> up_a_stayers c = true -> rho_turn_s c iter = false ->
  exists cons p', dgen_constraints nl nk c false = Ok cons /\
    dem_update_stayers argsort solver nl nk c iter cons data
      (map (fun o => map (stayer_posterior nl p o) (range nl)) data) p = Ok (p', cons) /\
    (dA p' = dA p \/ As_optimal nl nk c data p (dA p')) /\
    (dcomplete solver -> (exists A, As_optimal nl nk c data p A) -> As_optimal nl nk c data p (dA p')) /\
    (forall t, t <> T2s -> t <> T3s -> dA p' t = dA p t).
Proof. exact (effects_stayers argsort solver nl nk c data iter p). Qed.
Print Assumptions C88_stayers.
Example C88_case_stayers : exists cons p',
  dem_update_stayers isort ideal_solver 2 2 v_set 2 cons v_data
    (map (fun o => map (stayer_posterior 2 v_par o) (range 2)) v_data) v_par = Ok (p', cons).
Proof.
  destruct (C88_stayers isort ideal_solver 2 2 v_set v_data 2 v_par isort_ok ideal_exact)
    as (cons & p' & _ & E & _);
    [lia|cbn [v_set ds_lower_bound]; lra|apply v_valid|cbn [v_set dd_prior_stayers]; lra|
     intros _; exact v_firms|exact v_stayers|reflexivity|reflexivity|].
  now exists cons, p'.
Qed.

(* ================================================================== C89 *)
(* The reported likelihoods should not fall from one iteration to the next.  They
   can: with only the effects updated, no prior and no user constraints, a fit of
   two movers reports a lower likelihood in its second iteration than in its
   first, whatever exact and complete solver is used.  (The effects are weighted
   with the reciprocal of the standard deviation, not of the variance.) *)
Theorem C89_falls_refuted argsort solver pp :
  (forall l, is_argsort l (argsort l)) -> dexact solver -> dcomplete solver ->
  exists p' lik l0 l1,
    dfit_movers argsort solver pp 1 2 w_set false w_data w_par = Ok (p', lik, [l0; l1]) /\ l1 < l0 /\
    l0 = dmovers_loglik 1 2 w_par w_data.
Proof. exact (falls_thm argsort solver pp). Qed.
Print Assumptions C89_falls_refuted.
Example C89_case_falls : exists p' lik l0 l1,
  dfit_movers isort ideal_solver PFirst 1 2 w_set false w_data w_par = Ok (p', lik, [l0; l1]) /\ l1 < l0.
Proof.
  destruct (C89_falls_refuted isort ideal_solver PFirst isort_ok ideal_exact ideal_complete)
    as (p' & lik & l0 & l1 & E & H & _). now exists p', lik, l0, l1.
Qed.
(* They do not fall when neither rhos nor standard deviations are updated, there
   is no prior, and, if effects are updated, all wages have the same variance.
   Missing: fits that update rhos or standard deviations (the moves then do not
   maximise the likelihood). *)
Theorem C89_partial argsort solver pp nl nk c compute_NNm data p v :
  (forall l, is_argsort l (argsort l)) -> dexact solver -> (0 < nl)%nat ->
  dcons_valid (nt_movers c) nl nk c -> 0 < ds_lower_bound c ->
  up_rho12 c = false -> up_rho43 c = false -> up_rho32m c = false -> up_s c = false ->
  dd_prior c = 1 -> (up_pk1 c = true -> dall_pairs nk data) ->
  (forall o, In o data -> dmover_ok nl nk p o) ->
  (forall o, In o data -> sumn nl (dpk1 p (dg1 o + nk * dg4 o)%nat) = 1) ->
  b_absent nk (endogeneity c) (state_dependence c) (dAb p) ->
  b_absent nk (endogeneity c) (state_dependence c) (dSb p) ->
  (up_a c = true -> d_X_diag c <= 1 /\ 0 < v /\ equal_variances nl data v p /\
     forall s q, relabelling nl s -> drelabelled nl nk s (fun k => k) p q ->
       A_feasible nl nk c (dA q) (dAb q)) ->
  exists p' lik ls, dfit_movers argsort solver pp nl nk c compute_NNm data p = Ok (p', lik, ls) /\
    Sorted Rle (ls ++ [dmovers_loglik nl nk p' data]) /\
    hd 0 (ls ++ [dmovers_loglik nl nk p' data]) = dmovers_loglik nl nk p data.
Proof. exact (fit_ascent argsort solver pp nl nk c compute_NNm data p v). Qed.
Print Assumptions C89_partial.
Example C89_case : exists p' lik ls,
  dfit_movers isort ideal_solver PFirst 2 2
    (mkdset true true false false false false false false true false false false 5 0 0 1 1 1 1 1 [] [] [] [])
    true v_data v_par = Ok (p', lik, ls) /\ Sorted Rle (ls ++ [dmovers_loglik 2 2 p' v_data]).
Proof.
  destruct (C89_partial isort ideal_solver PFirst 2 2
    (mkdset true true false false false false false false true false false false 5 0 0 1 1 1 1 1 [] [] [] [])
    true v_data v_par 1 isort_ok ideal_exact) as (p' & lik & ls & E & H & _);
    [lia|intros o []|cbn [ds_lower_bound]; lra|reflexivity|reflexivity|reflexivity|reflexivity|reflexivity|
     intros _; exact v_pairs|exact v_movers| |split; discriminate|split; discriminate|discriminate|].
  - intros o _. rewrite !BaseLemmas.sumn_S, BaseLemmas.sumn_0. cbn [v_par dpk1]. lra.
  - now exists p', lik, ls.
Qed.

(* ================================================================== C90 *)
(* In an iteration that updates rhos, each updated rho is the coefficient with
   the smallest weighted sum of squares (weights: posterior probability over
   variance) when there is something to regress on; everything else stays. *)
Theorem C90_movers argsort solver nl nk c data iter p :
  (forall l, is_argsort l (argsort l)) -> dexact solver -> (0 < nl)%nat -> 0 < ds_lower_bound c ->
  dcons_valid (nt_movers c) nl nk c -> 1 <= dd_prior c -> (up_pk1 c = true -> dall_pairs nk data) ->
  (forall o, In o data -> dmover_ok nl nk p o) ->
  b_absent nk (endogeneity c) (state_dependence c) (dAb p) ->
  b_absent nk (endogeneity c) (state_dependence c) (dSb p) ->
  rho_turn c iter = true ->
  exists cons p', dgen_constraints nl nk c true = Ok cons /\
    dem_update argsort solver nl nk c iter cons data
      (map (fun o => map (mover_posterior nl nk p o) (range nl)) data) p = Ok (p', cons) /\
    (if up_rho12 c then regressor12 nl data p -> least (rho12_loss nl nk data p) (R12 p')
     else R12 p' = R12 p) /\
    (if up_rho43 c then regressor43 nl data p -> least (rho43_loss nl nk data p) (R43 p')
     else R43 p' = R43 p) /\
    (if up_rho32m c then regressor32m nl data p -> least (rho32m_loss nl nk data p) (R32m p')
     else R32m p' = R32m p) /\
    R32s p' = R32s p /\
    dA p' = dA p /\ dAb p' = dAb p /\ dS p' = dS p /\ dSb p' = dSb p.
Proof. exact (rho_movers argsort solver nl nk c data iter p). Qed.
Print Assumptions C90_movers.
Example C90_case : exists cons p',
  dem_update isort ideal_solver 2 2 v_set 1 cons v_data
    (map (fun o => map (mover_posterior 2 2 v_par o) (range 2)) v_data) v_par = Ok (p', cons) /\
  least (rho12_loss 2 2 v_data v_par) (R12 p').
Proof.
  destruct (C90_movers isort ideal_solver 2 2 v_set v_data 1 v_par isort_ok ideal_exact)
    as (cons & p' & _ & E & H & _);
    [lia|cbn [v_set ds_lower_bound]; lra|apply v_valid|cbn [v_set dd_prior]; lra|
     intros _; exact v_pairs|exact v_movers|apply v_absent|apply v_absent|reflexivity|].
  exists cons, p'. split; [exact E|]. apply H.
  exists (mkdobs 1 2 3 4 0 0), 0%nat. split; [now left|]. split; [lia|].
  cbn [dy2 dg1 v_par dA INR]. lra.
Qed.
Theorem C90_stayers argsort solver nl nk c data iter p :
  (forall l, is_argsort l (argsort l)) -> dexact solver -> (0 < nl)%nat -> 0 < ds_lower_bound c ->
  dcons_valid 2 nl nk c -> 1 <= dd_prior_stayers c -> (up_pk0 c = true -> dall_firms nk data) ->
  (forall o, In o data -> dstayer_ok nl nk p o) -> rho_turn_s c iter = true ->
  exists cons p', dgen_constraints nl nk c false = Ok cons /\
    dem_update_stayers argsort solver nl nk c iter cons data
      (map (fun o => map (stayer_posterior nl p o) (range nl)) data) p = Ok (p', cons) /\
    (regressor32s nl data p -> least (rho32s_loss nl data p) (R32s p')) /\
    R12 p' = R12 p /\ R43 p' = R43 p /\ R32m p' = R32m p /\ dA p' = dA p /\ dS p' = dS p.
Proof. exact (rho_stayers argsort solver nl nk c data iter p). Qed.
Print Assumptions C90_stayers.
Example C90_case_stayers : exists cons p',
  dem_update_stayers isort ideal_solver 2 2 v_set 1 cons v_data
    (map (fun o => map (stayer_posterior 2 v_par o) (range 2)) v_data) v_par = Ok (p', cons) /\
  least (rho32s_loss 2 v_data v_par) (R32s p').
Proof.
  destruct (C90_stayers isort ideal_solver 2 2 v_set v_data 1 v_par isort_ok ideal_exact)
    as (cons & p' & _ & E & H & _);
    [lia|cbn [v_set ds_lower_bound]; lra|apply v_valid|cbn [v_set dd_prior_stayers]; lra|
     intros _; exact v_firms|exact v_stayers|reflexivity|].
  exists cons, p'. split; [exact E|]. apply H.
  exists (mkdobs 1 2 3 4 0 0), 0%nat. split; [now left|]. split; [lia|].
  cbn [dy2 dg1 v_par dA INR]. lra.
Qed.

(* ================================================================== C91 *)
(* The new standard deviations should be those whose variances fit the squared
   residuals best.  They are not: with rho12 = 1, residuals that the present
   standard deviations (all 1) fit exactly make the fit return a variance of 3
   for period 1, whatever exact and complete solver is used.  (The variance of
   the wage of period 2 enters with -rho12 in place of rho12^2.) *)
Theorem C91_rho_refuted argsort solver pp :
  (forall l, is_argsort l (argsort l)) -> dexact solver -> dcomplete solver ->
  exists p' lik ls,
    dfit_movers argsort solver pp 1 1 u_set false u_data u_par = Ok (p', lik, ls) /\
    V_feasible 1 1 u_set (sq (dS u_par)) (sqb (dSb u_par)) /\
    V_loss 1 1 u_set u_data u_par (dA u_par) (dAb u_par) (sq (dS u_par)) (sqb (dSb u_par)) = 0 /\
    0 < V_loss 1 1 u_set u_data u_par (dA p') (dAb p') (sq (dS p')) (sqb (dSb p')) /\
    dS u_par T12 0%nat 0%nat = 1 /\ dS p' T12 0%nat 0%nat ^ 2 = 3.
Proof. exact (overstated_thm argsort solver pp). Qed.
Print Assumptions C91_rho_refuted.
Example C91_case_refuted : exists p' lik ls,
  dfit_movers isort ideal_solver PFirst 1 1 u_set false u_data u_par = Ok (p', lik, ls) /\
  dS p' T12 0%nat 0%nat ^ 2 = 3.
Proof.
  destruct (C91_rho_refuted isort ideal_solver PFirst isort_ok ideal_exact ideal_complete)
    as (p' & lik & ls & E & _ & _ & _ & _ & H). now exists p', lik, ls.
Qed.
(* They are when every rho is 0 or -1 (rho^2 = -rho). *)
Theorem C91_movers_partial argsort solver nl nk c data iter p :
  (forall l, is_argsort l (argsort l)) -> dexact solver -> (0 < nl)%nat -> 0 < ds_lower_bound c ->
  dcons_valid (nt_movers c) nl nk c -> 1 <= dd_prior c -> (up_pk1 c = true -> dall_pairs nk data) ->
  (forall o, In o data -> dmover_ok nl nk p o) ->
  b_absent nk (endogeneity c) (state_dependence c) (dAb p) ->
  b_absent nk (endogeneity c) (state_dependence c) (dSb p) ->
  plain (R12 p) -> plain (R43 p) -> plain (R32m p) -> up_s c = true -> rho_turn c iter = false ->
  exists cons p', dgen_constraints nl nk c true = Ok cons /\
    dem_update argsort solver nl nk c iter cons data
      (map (fun o => map (mover_posterior nl nk p o) (range nl)) data) p = Ok (p', cons) /\
    (dS p' = dS p /\ dSb p' = dSb p \/
     V_optimal nl nk c data p (dA p') (dAb p') (sq (dS p')) (sqb (dSb p'))) /\
    (dcomplete solver -> (exists V Vb, V_optimal nl nk c data p (dA p') (dAb p') V Vb) ->
     V_optimal nl nk c data p (dA p') (dAb p') (sq (dS p')) (sqb (dSb p'))).
Proof. exact (spread_movers argsort solver nl nk c data iter p). Qed.
Print Assumptions C91_movers_partial.
Example C91_case :
  let p := dset_rho 0 0 (-1) 0 v_par in exists cons p',
  dem_update isort ideal_solver 2 2 v_set 0 cons v_data
    (map (fun o => map (mover_posterior 2 2 p o) (range 2)) v_data) p = Ok (p', cons).
Proof.
  intros p. destruct (C91_movers_partial isort ideal_solver 2 2 v_set v_data 0 p isort_ok ideal_exact)
    as (cons & p' & _ & E & _);
    [lia|cbn [v_set ds_lower_bound]; lra|apply v_valid|cbn [v_set dd_prior]; lra|
     intros _; exact v_pairs|exact v_movers|apply v_absent|apply v_absent|
     now left|now left|now right|reflexivity|reflexivity|].
  now exists cons, p'.
Qed.
Theorem C91_stayers_partial argsort solver nl nk c data iter p :
  (forall l, is_argsort l (argsort l)) -> dexact solver -> (0 < nl)%nat -> 0 < ds_lower_bound c ->
  dcons_valid 2 nl nk c -> 1 <= dd_prior_stayers c -> (up_pk0 c = true -> dall_firms nk data) ->
  (forall o, In o data -> dstayer_ok nl nk p o) ->
  plain (R32s p) -> up_s_stayers c = true -> rho_turn_s c iter = false ->
  exists cons p', dgen_constraints nl nk c false = Ok cons /\
    dem_update_stayers argsort solver nl nk c iter cons data
      (map (fun o => map (stayer_posterior nl p o) (range nl)) data) p = Ok (p', cons) /\
    (dS p' = dS p \/ Vs_optimal nl nk c data p (dA p') (sq (dS p'))) /\
    (dcomplete solver -> (exists V, Vs_optimal nl nk c data p (dA p') V) ->
     Vs_optimal nl nk c data p (dA p') (sq (dS p'))) /\
    (forall t, t <> T2s -> t <> T3s -> dS p' t = dS p t).
Proof. exact (spread_stayers argsort solver nl nk c data iter p). Qed.
Print Assumptions C91_stayers_partial.
Example C91_case_stayers :
  let p := dset_rho (1/2) (1/2) (1/2) 0 v_par in exists cons p',
  dem_update_stayers isort ideal_solver 2 2 v_set 0 cons v_data
    (map (fun o => map (stayer_posterior 2 p o) (range 2)) v_data) p = Ok (p', cons).
Proof.
  intros p. destruct (C91_stayers_partial isort ideal_solver 2 2 v_set v_data 0 p isort_ok ideal_exact)
    as (cons & p' & _ & E & _);
    [lia|cbn [v_set ds_lower_bound]; lra|apply v_valid|cbn [v_set dd_prior_stayers]; lra|
     intros _; exact v_firms|exact v_stayers|now left|reflexivity|reflexivity|].
  now exists cons, p'.
Qed.
