(* Properties C37-C40 and C63: pytwoway/blm.py, sorting, normalisation, type
   proportions and likelihood. *)
From Verif Require Import Base UtilModel UtilSpec BLMModel BLMEMModel BLMSpec
  BLMSortLemmas BLMLikLemmas BLMStayLemmas BLMPropLemmas.
From Coq Require Import Permutation Sorted.
Local Open Scope res_scope.
Local Open Scope R_scope.

(* ================================================================== C37 *)
(* Sorting renames worker types (by s) and firm types (by t), in all parameters
   alike; afterwards the types are in the order asked for. *)
Theorem C37_sort_relabels argsort :
  (forall l, is_argsort l (argsort l)) ->
  forall pp nl nk (sort_firm_types reverse : bool) p,
  let p' := sort_parameters argsort pp nl nk sort_firm_types reverse p in
  exists s t, relabelling nl s /\ relabelling nk t
    /\ (sort_firm_types = false -> forall k, t k = k)
    /\ relabelled nl nk s t p p'
    /\ ordered reverse nl (worker_mean pp nk (A1 p') (A2 p'))
    /\ (sort_firm_types = true -> ordered reverse nk (firm_mean pp nl (A1 p') (A2 p'))).
Proof. exact (sort_spec argsort). Qed.
Print Assumptions C37_sort_relabels.

(* The likelihood the code computes for the renamed data under the sorted
   parameters is the likelihood before. *)
Theorem C37_likelihood_unchanged argsort pp nl nk (sort_firm_types reverse : bool) p :
  (forall l, is_argsort l (argsort l)) -> (0 < nl)%nat -> shapes_ok p ->
  let p' := sort_parameters argsort pp nl nk sort_firm_types reverse p in
  exists s t, relabelling nl s /\ relabelling nk t
    /\ (sort_firm_types = false -> forall k, t k = k)
    /\ forall data data',
      Forall (mover_ok nl nk p) data -> Forall2 (same_row nk t) data data' ->
      (lp <- lp_movers nl nk p' data' ;; mean_lse lp)
        = (lp <- lp_movers nl nk p data ;; mean_lse lp) /\
      stayers_loglik nl p' (pk0 p') data' = stayers_loglik nl p (pk0 p) data.
Proof. exact (sort_likelihood argsort pp nl nk sort_firm_types reverse p). Qed.
Print Assumptions C37_likelihood_unchanged.

(* Types in decreasing order of their effects are turned round. *)
Example C37_case :
  (forall l, is_argsort l (isort l)) /\ shapes_ok ex_par /\
  Forall (mover_ok 2 2 ex_par) ex_data /\
  let p' := sort_parameters isort PFirst 2 2 true false ex_par in
  worker_mean PFirst 2 ex_A ex_A 1 < worker_mean PFirst 2 ex_A ex_A 0 /\
  worker_mean PFirst 2 (A1 p') (A2 p') 0 <= worker_mean PFirst 2 (A1 p') (A2 p') 1 /\
  firm_mean PFirst 2 (A1 p') (A2 p') 0 <= firm_mean PFirst 2 (A1 p') (A2 p') 1.
Proof. exact (conj isort_ok (conj ex_shapes (conj ex_movers_ok ex_sort_moves))). Qed.

(* ================================================================== C38 *)
Theorem C38_normalise argsort pp nl nk cols A1 A2 A1c A2c :
  (forall l, is_argsort l (argsort l)) -> (0 < nl)%nat -> (0 < nk)%nat ->
  Forall2 cat_shape cols A1c -> Forall2 cat_shape cols A2c ->
  let '(B1, B2, B1c, B2c) := normalize argsort pp nl nk cols (A1, A2, A1c, A2c) in
  (* predicted wages: any worker type, firm type and categories *)
  (forall l k ns, length ns = length cols ->
     B1 l k + cat_sum l B1c ns = A1 l k + cat_sum l A1c ns /\
     B2 l k + cat_sum l B2c ns = A2 l k + cat_sum l A2c ns) /\
  (* differences between firm types *)
  (forall l k k', B1 l k - B1 l k' = A1 l k - A1 l k' /\ B2 l k - B2 l k' = A2 l k - A2 l k') /\
  (* the reference effect *)
  (exists k0, lowest pp nl nk k0 A1 A2 /\ lowest pp nl nk k0 B1 B2 /\
     reference_zero pp nl cols k0 B1 B2) /\
  Forall2 cat_shape cols B1c /\ Forall2 cat_shape cols B2c /\
  (* stationary columns *)
  (forall c col b1 b2, nth_error cols c = Some col -> cc_stat col = true ->
     nth_error B1c c = Some b1 -> nth_error B2c c = Some b2 ->
     exists a1 a2, nth_error A1c c = Some a1 /\ nth_error A2c c = Some a2 /\
       (same_effects a1 a2 -> same_effects b1 b2)).
Proof. exact (normalize_props argsort pp nl nk cols A1 A2 A1c A2c). Qed.
Print Assumptions C38_normalise.

Example C38_case :
  (forall l, is_argsort l (isort l)) /\ Forall2 cat_shape ex_cols ex_cats /\
  has_col ex_cols true true /\ has_col ex_cols false false.
Proof.
  refine (conj isort_ok (conj ex_cats_shape (conj _ _)));
    [exists (mkcat true true)|exists (mkcat false false)]; simpl; auto.
Qed.

(* ================================================================== C39 *)
(* pk1: with every pair of firm types observed the rows are probabilities, the
   share of each worker type among the weighted posteriors of the pair. *)
Theorem C39_pk1_rows nl nk d_prior data qi :
  (0 < nl)%nat -> (0 < nk)%nat -> 1 <= d_prior -> Forall (data_ok nk) data ->
  (forall o, In o data -> 0 < w1 o /\ 0 < w2 o) -> posteriors_ok nl data qi ->
  (forall k1 k2, (k1 < nk)%nat -> (k2 < nk)%nat ->
     exists o, In o data /\ g1 o = k1 /\ g2 o = k2) ->
  exists pk, update_pk1 nl nk d_prior data qi = Ok pk /\
    forall k1 k2, (k1 < nk)%nat -> (k2 < nk)%nat ->
      prob_row nl (pk (k1 + nk * k2)%nat) /\
      forall l, (l < nl)%nat ->
        pk (k1 + nk * k2)%nat l
        = share (moves k1 k2) (fun o => sqrt (w1 o * w2 o)) d_prior data qi l
          / sumn nl (share (moves k1 k2) (fun o => sqrt (w1 o * w2 o)) d_prior data qi).
Proof. exact (update_pk1_ok nl nk d_prior data qi). Qed.
Print Assumptions C39_pk1_rows.

(* A pair without observation raises. *)
Theorem C39_pk1_missing_pair nl nk d_prior data qi k1 k2 :
  (0 < nl)%nat -> Forall (data_ok nk) data -> posteriors_ok nl data qi ->
  (k1 < nk)%nat -> (k2 < nk)%nat ->
  (forall o, In o data -> g1 o <> k1 \/ g2 o <> k2) ->
  update_pk1 nl nk d_prior data qi = Err ValueError.
Proof. exact (update_pk1_err nl nk d_prior data qi k1 k2). Qed.
Print Assumptions C39_pk1_missing_pair.

(* pk0: after any number of iterations of fit_stayers the row of a firm type
   with stayers is a distribution.  Missing for the claim: a firm type without
   stayers (other than the last) does not raise, its row is nan. *)
Theorem C39_stayers_partial n_iters nl nk d_prior threshold p data :
  (0 < nl)%nat -> 1 <= d_prior -> shapes_ok p -> Forall (stayer_ok nl nk p) data ->
  (forall o, In o data -> 0 < w1 o) ->
  (forall o, In o data -> sumn nl (pk0 p (g1 o)) = 1) ->
  (exists o, In o data /\ S (g1 o) = nk) ->
  exists pk lik liks, fit_stayers n_iters nl nk d_prior threshold p data = Ok (pk, lik, liks) /\
    (forall o, In o data -> exists r, (forall l, (l < nl)%nat -> pk (g1 o) l = Some (r l))
       /\ prob_row nl r) /\
    (n_iters <> 0%nat -> forall k l, (k < nk)%nat -> (l < nl)%nat ->
       (forall o, In o data -> g1 o <> k) -> pk k l = None).
Proof. exact (stayers_rows n_iters nl nk d_prior threshold p data). Qed.
Print Assumptions C39_stayers_partial.

(* The last firm type without stayers raises. *)
Theorem C39_stayers_missing_last n nl nk d_prior threshold p data :
  (0 < nl)%nat -> (0 < nk)%nat -> shapes_ok p -> Forall (stayer_ok nl nk p) data ->
  (forall o, In o data -> 0 < w1 o) ->
  (forall o, In o data -> sumn nl (pk0 p (g1 o)) = 1) ->
  (forall o, In o data -> S (g1 o) <> nk) ->
  fit_stayers (S n) nl nk d_prior threshold p data = Err ValueError.
Proof. exact (stayers_missing_last n nl nk d_prior threshold p data). Qed.
Print Assumptions C39_stayers_missing_last.

(* Refuted for stayers: fit_stayers returns a nan row. *)
Theorem C39_stayers_refuted :
  exists n_iters nl nk d_prior threshold p data pk lik liks k,
    (0 < nl)%nat /\ 1 <= d_prior /\ shapes_ok p /\ Forall (stayer_ok nl nk p) data /\
    data <> [] /\ (forall o, In o data -> 0 < w1 o) /\
    (forall k, (k < nk)%nat -> prob_row nl (pk0 p k)) /\
    fit_stayers n_iters nl nk d_prior threshold p data = Ok (pk, lik, liks) /\
    (k < nk)%nat /\ forall l, (l < nl)%nat -> pk k l = None.
Proof. exact stayers_nan. Qed.
Print Assumptions C39_stayers_refuted.

Example C39_case :
  Forall (mover_ok 2 2 ex_par) ex_data /\ posteriors_ok 2 ex_data ex_qi /\
  (forall k1 k2, (k1 < 2)%nat -> (k2 < 2)%nat ->
     exists o, In o ex_data /\ g1 o = k1 /\ g2 o = k2) /\
  (forall o, In o gap_data -> g1 o <> 0%nat).
Proof.
  refine (conj ex_movers_ok (conj ex_qi_ok (conj ex_pairs _))).
  intros o [<-|[]]. discriminate.
Qed.

(* ================================================================== C40 *)
(* The recorded likelihoods followed by the likelihood of the proportions
   returned: the first is that of the starting values, and each is at least the
   one before. *)
Theorem C40_stayers_monotone n_iters nl nk threshold p data w :
  (0 < nl)%nat -> (0 < nk)%nat -> shapes_ok p -> Forall (stayer_ok nl nk p) data ->
  0 < w -> (forall o, In o data -> w1 o = w) ->
  (forall k, (k < nk)%nat -> sumn nl (pk0 p k) = 1) ->
  (forall k, (k < nk)%nat -> exists o, In o data /\ g1 o = k) ->
  exists pk lik ls r,
    fit_stayers n_iters nl nk 1 threshold p data = Ok (pk, lik, map Some ls) /\
    (forall k l, (k < nk)%nat -> (l < nl)%nat -> pk k l = Some (r k l)) /\
    (forall k, (k < nk)%nat -> prob_row nl (r k)) /\
    (length ls <= n_iters)%nat /\ (n_iters <> 0%nat -> ls <> []) /\
    hd 0 (ls ++ [stayers_loglik nl p r data]) = stayers_loglik nl p (pk0 p) data /\
    Sorted Rle (ls ++ [stayers_loglik nl p r data]).
Proof. exact (stayers_monotone n_iters nl nk threshold p data w). Qed.
Print Assumptions C40_stayers_monotone.

Example C40_case :
  shapes_ok ex_par /\ Forall (stayer_ok 2 2 ex_par) ex_data /\
  (forall o, In o ex_data -> w1 o = 1) /\ (forall k, sumn 2 (pk0 ex_par k) = 1) /\
  (forall k, (k < 2)%nat -> exists o, In o ex_data /\ g1 o = k).
Proof.
  exact (conj ex_shapes (conj ex_stayers_ok (conj ex_weights (conj ex_pk0 ex_types)))).
Qed.

(* ================================================================== C63 *)
(* The E-step returns the mean log-likelihood of the normal mixture and the
   Bayes posterior of each worker type for each row. *)
Theorem C63_likelihood nl nk p data :
  (0 < nl)%nat -> shapes_ok p -> Forall (mover_ok nl nk p) data ->
  (lp <- lp_movers nl nk p data ;; mean_lse lp) = Ok (movers_loglik nl nk p data).
Proof. exact (movers_likelihood nl nk p data). Qed.
Print Assumptions C63_likelihood.

Theorem C63_posteriors nl nk p data :
  (0 < nl)%nat -> shapes_ok p -> Forall (mover_ok nl nk p) data ->
  (lp <- lp_movers nl nk p data ;; posteriors lp)
  = Ok (map (fun o => map (fun l =>
          pk1 p (g1 o + nk * g2 o)%nat l * mover_density p o l
          / mixture nl (pk1 p (g1 o + nk * g2 o)%nat) (mover_density p o)) (range nl)) data).
Proof. exact (movers_posteriors nl nk p data). Qed.
Print Assumptions C63_posteriors.

Example C63_case : shapes_ok ex_par /\ Forall (mover_ok 2 2 ex_par) ex_data.
Proof. exact (conj ex_shapes ex_movers_ok). Qed.
