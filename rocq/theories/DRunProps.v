(* Property C95: pytwoway/blm_dynamic.py, the phases and the choice among estimated models of
   the dynamic BLM estimator. *)
From Coq Require Import Permutation Lra Lia.
From Verif Require Import Base UtilModel UtilSpec ConsModel BLMModel BLMRunModel BLMPropLemmas BLMFitModel DBLMModel DBLMSpec
  DBLMEMSpec DBLMPropLemmas ConnModel ConnSpec ConnPropLemmas DRunModel DRunSpec DRunLemmas DRunPropLemmas.
Local Open Scope R_scope.

(* ================================================================== C95 *)
(* fit_movers_cstr_uncstr, from positive standard deviations and proportions, on data with
   every pair of firm types: the constrained phases one after the other, then the
   unconstrained one, whose estimates, likelihood and counts are kept, then a positive
   connectedness measure. *)
Theorem C95_movers argsort solver eig pp nl nk c blm all data m :
  (forall l, is_argsort l (argsort l)) -> dexact solver -> eig_ok nk eig ->
  (0 < nl)%nat -> (2 <= nk)%nat -> firm_types nk data -> dall_pairs nk data ->
  dcons_valid (nt_movers c) nl nk c -> 0 < ds_lower_bound c -> 1 <= dd_prior c -> (0 < dn_iters c)%nat ->
  (forall b, blm = Some b -> static_ok nl nk b) -> dpar_ok nl nk c (m_par m) ->
  exists p0 p1 q lik ls v,
    first_estimates blm all (m_par m) p0 /\
    fits_in_turn (fun c p => dfit_movers argsort solver pp nl nk c false data p)
      (constrained_phases nl (match blm with Some _ => true | None => false end) c) p0 p1 /\
    dfit_movers argsort solver pp nl nk (last_phase c) true data p1 = Ok (q, Some lik, ls) /\
    dcstr_uncstr argsort solver eig pp nl nk false c true blm all data m
      = Ok (mkdmodel q true (Some lik) ls (Some v)) /\
    0 < v <= 2 /\ dpar_ok nl nk c q /\ dNNm q = dmover_counts data.
Proof.
  intros Ha He Eg Hl Hk Ht Hp. exact (cstr_good argsort Ha solver He pp nl nk Hl data Ht Hp eig c blm all m Eg Hk).
Qed.
Print Assumptions C95_movers.

(* fit: all starting values are estimated, the even ones from the static model; the n_best
   with the highest likelihoods are kept apart; the model chosen among them has the highest
   connectedness; the stayers are estimated from its estimates, and do not change those of
   the movers.  n_best = 0 and n_best > n_init are errors. *)
Theorem C95_estimator argsort solver eig pp nl nk c blm rho1 rho4 n_best jdata sdata starts :
  (forall l, is_argsort l (argsort l)) -> dexact solver -> eig_ok nk eig ->
  (0 < nl)%nat -> (2 <= nk)%nat -> firm_types nk jdata -> dall_pairs nk jdata -> firm_types nk sdata ->
  (up_pk0 c = true -> dall_firms nk sdata) ->
  dcons_valid (nt_movers c) nl nk c -> dcons_valid 2 nl nk c -> 0 < ds_lower_bound c ->
  1 <= dd_prior c -> 1 <= dd_prior_stayers c -> (0 < dn_iters c)%nat ->
  (forall b, blm = Some b -> static_ok nl nk b) -> Forall (draws_ok nl nk) starts ->
  let fit b all m := dcstr_uncstr argsort solver eig pp nl nk false c true b all jdata m in
  let est := destimate argsort solver eig pp nl nk false c blm rho1 rho4 n_best jdata sdata starts in
  exists models,
    length models = length starts /\
    (forall i d, nth_error starts i = Some d -> exists m lik v, nth_error models i = Some m /\
       run_one fit (new_model nl c rho1 rho4) blm i d = Ok m /\ has_measures lik v m /\ 0 < v <= 2) /\
    ((length starts < n_best)%nat -> est = Err ValueError) /\
    ((n_best <= length starts)%nat -> n_best = 0%nat -> est = Err IndexError) /\
    ((0 < n_best <= length starts)%nat ->
     exists f best low q lik ls,
       est = Ok (f, (dset_NNs (dstayer_counts sdata) q, lik, ls)) /\
       Permutation (best ++ low) models /\ length best = n_best /\
       (forall a b la va lb vb, In a best -> In b low -> has_measures la va a -> has_measures lb vb b -> lb <= la) /\
       In (f_model f) best /\
       (forall a la va lf vf, In a best -> has_measures la va a -> has_measures lf vf (f_model f) -> va <= vf) /\
       Forall2 (fun m r => m_lik m = Some r) best (f_liks_high f) /\
       Forall2 (fun m r => m_conn m = Some r) best (f_connectedness_high f) /\
       Forall2 (fun m r => m_lik m = Some r) low (f_liks_low f) /\
       Forall2 (fun m r => m_conn m = Some r) low (f_connectedness_low f) /\
       f_liks_all f = map m_liks (best ++ low) /\
       stayer_path solver nl nk c sdata (dn_iters_stayers c) 0 None (m_par (f_model f)) ls q /\
       lik = match rev ls with [] => None | l :: _ => Some l end /\
       same_movers (m_par (f_model f)) q).
Proof.
  intros Ha He Eg Hl Hk Hj Hp Hs Hf Hv Hv2 Hlb Hd Hd2 Hn Hb Hst.
  exact (estimate_good argsort Ha solver He eig pp nl nk Hl Eg Hk jdata sdata c blm rho1 rho4 Hj Hp Hs Hf
           Hv Hv2 Hlb Hd Hd2 Hn Hb starts n_best Hst).
Qed.
Print Assumptions C95_estimator.

(* update_a_movers, update_s_movers and update_pk1 do not matter: everything is updated in
   the end. *)
Theorem C95_switches_refuted argsort solver eig pp nl nk force c a s k compute_NNm blm all data m :
  dcstr_uncstr argsort solver eig pp nl nk force
    (phase a s k (dcons_a_all c) (d_X_diag c) c) compute_NNm blm all data m
  = dcstr_uncstr argsort solver eig pp nl nk force c compute_NNm blm all data m.
Proof. exact (switches_ignored argsort solver eig pp nl nk force c a s k compute_NNm blm all data m). Qed.
Print Assumptions C95_switches_refuted.

(* force_min_firm_type raises TypeError, on all data. *)
Theorem C95_force_refuted argsort solver eig pp nl nk c compute_NNm blm all data m : (0 < nk)%nat ->
  dcstr_uncstr argsort solver eig pp nl nk true c compute_NNm blm all data m = Err TypeError.
Proof. exact (force_fails argsort solver eig pp nl nk c compute_NNm blm all data m). Qed.
Print Assumptions C95_force_refuted.

(* compute_NNm = False never completes on a new model. *)
Theorem C95_counts_refuted argsort solver eig pp nl nk force c blm all data rho1 rho4 d x :
  dcstr_uncstr argsort solver eig pp nl nk force c false blm all data (new_model nl c rho1 rho4 d) <> Ok x.
Proof.
  exact (uncounted_fails argsort solver eig pp nl nk force c blm all data (new_model nl c rho1 rho4 d) x eq_refl).
Qed.
Print Assumptions C95_counts_refuted.

(* Two worker types, two firm types, three starting values, of which two are kept apart. *)
Example C95_case : exists f s,
  destimate isort ideal_solver eig2 PFirst 2 2 false v_set (Some w_static) 0 0 2 v_data v_data
    [w_draws 0; w_draws 1; w_draws 2] = Ok (f, s) /\
  length (f_liks_high f) = 2%nat /\ length (f_liks_low f) = 1%nat /\
  exists i d, nth_error [w_draws 0; w_draws 1; w_draws 2] i = Some d /\
    run_one (fun b all m => dcstr_uncstr isort ideal_solver eig2 PFirst 2 2 false v_set true b all v_data m)
      (new_model 2 v_set 0 0) (Some w_static) i d = Ok (f_model f).
Proof.
  destruct (C95_estimator isort ideal_solver eig2 PFirst 2 2 v_set (Some w_static) 0 0 2 v_data v_data
    [w_draws 0; w_draws 1; w_draws 2] isort_ok ideal_exact eig2_ok) as (ms & Len & Run & _ & _ & Sel);
    [lia|lia|exact v_types|exact v_pairs|exact v_types|intros _; exact v_firms|apply v_valid|apply v_valid|
     cbn [v_set ds_lower_bound]; lra|cbn [v_set dd_prior]; lra|cbn [v_set dd_prior_stayers]; lra|
     cbn [v_set dn_iters]; lia|exact w_static_ok|repeat constructor; intros; cbn [w_draws r_S r_pk1]; lra|].
  destruct Sel as (f & best & low & q & lik & ls & E & P & Lb & _ & If & _ & F1 & _ & F2 & _);
    [cbn [length]; lia|].
  exists f, (dset_NNs (dstayer_counts v_data) q, lik, ls). split; [exact E|].
  apply Forall2_len in F1, F2. split; [lia|]. split.
  { apply Permutation_length in P. rewrite app_length in P. cbn [length] in *. lia. }
  assert (I : In (f_model f) ms) by (eapply Permutation_in; [exact P|apply in_or_app; now left]).
  apply In_nth_error in I as (i & I).
  destruct (nth_error [w_draws 0; w_draws 1; w_draws 2] i) as [d|] eqn:Ed.
  - destruct (Run i d Ed) as (m & l & v & Em & R & _). exists i, d. split; auto. rewrite I in Em.
    injection Em as <-. exact R.
  - exfalso. apply nth_error_None in Ed. assert (nth_error ms i <> None) as N by congruence.
    apply nth_error_Some in N. lia.
Qed.
