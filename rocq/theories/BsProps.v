(* Properties of the Borovickova-Shimer estimator. *)
From Coq Require Import Sorted Permutation.
From Verif Require Import Base UtilModel BsModel BsSpec BsPropLemmas BsProp2Lemmas BsProp3Lemmas BsCases.
Local Open Scope R_scope.

(* C48: without weights both estimators compute the average products of distinct
   observations of a worker, of a firm, and of the leave-out means. *)
Theorem C48_unweighted sort_j sort_rows has_w alternative weighted l workers firms :
  is_sort_j sort_j -> sorted_by bi l -> two_obs bi l -> two_obs bj l ->
  lists_units bi workers l -> lists_units bj firms l -> (weighted && has_w)%bool = false ->
  exists r after, fit sort_j sort_rows true has_w alternative weighted l = Ok (r, after) /\
    r_var_y r = average (fun x => (by_ x - average by_ l) ^ 2) l /\
    r_mean r = average by_ l /\
    r_var_lambda r = pair_variance bi workers l /\
    r_var_mu r = pair_variance bj firms l /\
    r_cov r = pair_covariance l /\
    r_corr r = pair_covariance l / sqrt (pair_variance bi workers l * pair_variance bj firms l).
Proof. intros S So _ _. exact (c48_unweighted sort_j sort_rows has_w alternative weighted l workers firms S So). Qed.
Print Assumptions C48_unweighted.

(* C48, with weights, the standard estimator.  Missing: var(y), see C74_var_y_refuted,
   and the alternative estimator, see C74_alternative_refuted. *)
Theorem C48_weighted_partial sort_j sort_rows l workers firms :
  is_sort_j sort_j -> sorted_by bi l -> two_obs bi l -> two_obs bj l -> positive_weights l ->
  lists_units bi workers l -> lists_units bj firms l ->
  exists r after, fit sort_j sort_rows true true false true l = Ok (r, after) /\
    r_mean r = waverage bw by_ l /\
    r_var_lambda r = pair_variance_w bi workers l /\
    r_var_mu r = pair_variance_w bj firms l /\
    r_cov r = pair_covariance_w l /\
    r_corr r = pair_covariance_w l / sqrt (pair_variance_w bi workers l * pair_variance_w bj firms l).
Proof. intros S So _ _ W Lw Lf. exact (c48_weighted sort_j sort_rows l workers firms S So Lw Lf W). Qed.
Print Assumptions C48_weighted_partial.

(* C48: data with returns are refused. *)
Theorem C48_returns_refused sort_j sort_rows has_w alternative weighted l :
  fit sort_j sort_rows false has_w alternative weighted l = Err ValueError.
Proof. exact eq_refl. Qed.
Print Assumptions C48_returns_refused.

Example C48_case :
  is_sort_j sort_by_j /\ sorted_by bi (four 1 1 5 5 1 4) /\ two_obs bi (four 1 1 5 5 1 4) /\ two_obs bj (four 1 1 5 5 1 4) /\
  positive_weights (four 1 1 5 5 1 4) /\
  lists_units bi [0; 1]%nat (four 1 1 5 5 1 4) /\ lists_units bj [0; 1]%nat (four 1 1 5 5 1 4) /\
  pair_variance bi [0; 1]%nat (four 1 1 5 5 1 4) = 4.
Proof.
  split; [exact sort_by_j_ok|]. split; [apply four_sorted|]. split; [apply four_two_i|]. split; [apply four_two_j|].
  split; [apply four_positive; lra|]. split; [apply four_units_i|]. split; [apply four_units_j|].
  rewrite four_variance. lra.
Qed.

(* C73: adding a constant to every wage moves the mean and nothing else. *)
Theorem C73_shift_partial sort_j sort_rows has_w alternative weighted l c r after r' after' :
  is_sort_j sort_j -> sorted_by bi l -> l <> [] -> two_obs bi l -> two_obs bj l -> (weighted && has_w)%bool = false ->
  fit sort_j sort_rows true has_w alternative weighted l = Ok (r, after) ->
  fit sort_j sort_rows true has_w alternative weighted (map (add_wage c) l) = Ok (r', after') ->
  r_mean r' = r_mean r + c /\ r_var_y r' = r_var_y r /\ r_var_lambda r' = r_var_lambda r /\
  r_var_mu r' = r_var_mu r /\ r_cov r' = r_cov r /\ r_corr r' = r_corr r.
Proof. exact (c73_shift sort_j sort_rows has_w alternative weighted l c r after r' after'). Qed.
Print Assumptions C73_shift_partial.

(* With unequal weights a constant added to every wage changes the variances. *)
Theorem C73_weighted_refuted sort_j sort_rows : is_sort_j sort_j ->
  exists l c r after r' after', positive_weights l /\ sorted_by bi l /\ two_obs bi l /\ two_obs bj l /\ single_spells l /\
  fit sort_j sort_rows true true false true l = Ok (r, after) /\
  fit sort_j sort_rows true true false true (map (add_wage c) l) = Ok (r', after') /\
  r_mean r' = r_mean r + c /\ r_var_lambda r' <> r_var_lambda r.
Proof. exact (c73_refuted sort_j sort_rows). Qed.
Print Assumptions C73_weighted_refuted.

Example C73_case :
  is_sort_j sort_by_j /\ sorted_by bi (four 1 2 5 9 1 1) /\ four 1 2 5 9 1 1 <> [] /\ two_obs bi (four 1 2 5 9 1 1) /\ two_obs bj (four 1 2 5 9 1 1) /\
  exists r a r' a', fit sort_by_j sort_by_it true true true false (four 1 2 5 9 1 1) = Ok (r, a) /\
  fit sort_by_j sort_by_it true true true false (map (add_wage 3) (four 1 2 5 9 1 1)) = Ok (r', a').
Proof.
  split; [exact sort_by_j_ok|]. split; [apply four_sorted|]. split; [discriminate|]. split; [apply four_two_i|]. split; [apply four_two_j|].
  do 4 eexists. split; reflexivity.
Qed.

(* C74: weights all equal to one change nothing in the standard estimator. *)
Theorem C74_unit_weights_partial sort_j sort_rows has_w l r after r' after' :
  is_sort_j sort_j -> sorted_by bi l -> (forall x, In x l -> bw x = 1) ->
  fit sort_j sort_rows true has_w false false l = Ok (r, after) ->
  fit sort_j sort_rows true true false true l = Ok (r', after') -> r' = r.
Proof. exact (c74_unit sort_j sort_rows has_w l r after r' after'). Qed.
Print Assumptions C74_unit_weights_partial.

(* Multiplying all weights by k changes only var(y), by the factor k^2. *)
Theorem C74_rescale_partial sort_j sort_rows l k r after r' after' :
  is_sort_j sort_j -> sorted_by bi l -> positive_weights l -> 0 < k ->
  fit sort_j sort_rows true true false true l = Ok (r, after) ->
  fit sort_j sort_rows true true false true (map (scale_weight k) l) = Ok (r', after') ->
  r_mean r' = r_mean r /\ r_var_lambda r' = r_var_lambda r /\ r_var_mu r' = r_var_mu r /\ r_cov r' = r_cov r /\
  r_corr r' = r_corr r /\ r_var_y r' = k ^ 2 * r_var_y r.
Proof. exact (c74_rescale sort_j sort_rows l k r after r' after'). Qed.
Print Assumptions C74_rescale_partial.

(* With weights, var(y) of constant wages is positive. *)
Theorem C74_var_y_refuted sort_j sort_rows alternative :
  exists l r after, positive_weights l /\ sorted_by bi l /\ two_obs bi l /\ two_obs bj l /\ (forall x, In x l -> by_ x = 1) /\
  fit sort_j sort_rows true true alternative true l = Ok (r, after) /\ 0 < r_var_y r.
Proof. exact (c74_var_y sort_j sort_rows alternative). Qed.
Print Assumptions C74_var_y_refuted.

(* With unit weights the alternative estimator halves the average products of pairs. *)
Theorem C74_alternative_refuted sort_j sort_rows has_w l r after r' after' :
  is_sort_j sort_j -> sorted_by bi l -> (forall x, In x l -> bw x = 1) -> two_obs bi l -> two_obs bj l ->
  fit sort_j sort_rows true has_w true false l = Ok (r, after) ->
  fit sort_j sort_rows true true true true l = Ok (r', after') ->
  r_var_y r' = r_var_y r /\ r_mean r' = r_mean r /\ r_cov r' = r_cov r /\
  r_var_lambda r' = (r_var_lambda r + r_mean r ^ 2) / 2 - r_mean r ^ 2 /\
  r_var_mu r' = (r_var_mu r + r_mean r ^ 2) / 2 - r_mean r ^ 2 /\
  (0 < r_var_lambda r -> r_var_lambda r' < r_var_lambda r).
Proof. exact (c74_alternative_less sort_j sort_rows has_w l r after r' after'). Qed.
Print Assumptions C74_alternative_refuted.

Example C74_case :
  is_sort_j sort_by_j /\ sorted_by bi (four 1 1 5 5 1 1) /\ (forall x, In x (four 1 1 5 5 1 1) -> bw x = 1) /\
  two_obs bi (four 1 1 5 5 1 1) /\ two_obs bj (four 1 1 5 5 1 1) /\
  exists r a r' a', fit sort_by_j sort_by_it true true true false (four 1 1 5 5 1 1) = Ok (r, a) /\
  fit sort_by_j sort_by_it true true true true (four 1 1 5 5 1 1) = Ok (r', a').
Proof.
  split; [exact sort_by_j_ok|]. split; [apply four_sorted|]. split; [intros x [<-|[<-|[<-|[<-|[]]]]]; reflexivity|].
  split; [apply four_two_i|]. split; [apply four_two_j|]. do 4 eexists. split; reflexivity.
Qed.

(* C75: the caller finds the data as they were. *)
Theorem C75_data_unchanged sort_j sort_rows has_w alternative weighted l r after :
  is_sort_j sort_j -> is_sort_rows sort_rows -> StronglySorted before l -> (forall x, In x l -> bu x = None) ->
  fit sort_j sort_rows true has_w alternative weighted l = Ok (r, after) -> after = l.
Proof. exact (c75_unchanged sort_j sort_rows has_w alternative weighted l r after). Qed.
Print Assumptions C75_data_unchanged.

Example C75_case :
  is_sort_j sort_by_j /\ is_sort_rows sort_by_it /\ StronglySorted before (four 1 2 5 9 1 4) /\
  (forall x, In x (four 1 2 5 9 1 4) -> bu x = None) /\
  sort_by_j (four 1 2 5 9 1 4) <> four 1 2 5 9 1 4 /\
  exists r a, fit sort_by_j sort_by_it true true false true (four 1 2 5 9 1 4) = Ok (r, a).
Proof.
  split; [exact sort_by_j_ok|]. split; [exact sort_by_it_ok|]. split; [apply four_before|].
  split; [intros x [<-|[<-|[<-|[<-|[]]]]]; reflexivity|]. split; [cbn; intros E; injection E; intros; discriminate|].
  do 2 eexists. reflexivity.
Qed.

(* C76: wages uncorrelated across observations around m: the expected variances are
   those of the wages m, less the variance of the mean wage; so is the covariance when
   every worker-firm pair is observed once. *)
Theorem C76_uncorrelated_noise_partial sort_j sort_rows has_w alternative weighted l Om m est r0 after0 :
  is_sort_j sort_j -> sorted_by bi l -> two_obs bi l -> two_obs bj l -> (weighted && has_w)%bool = false ->
  is_space Om -> (forall p, (p < length l)%nat -> expect Om (fun y => y p) = m p) ->
  (forall p q, (p < length l)%nat -> (q < length l)%nat -> p <> q -> expect Om (fun y => y p * y q) = m p * m q) ->
  (forall y, exists after, fit sort_j sort_rows true has_w alternative weighted (with_wages l y) = Ok (est y, after)) ->
  fit sort_j sort_rows true has_w alternative weighted (with_wages l m) = Ok (r0, after0) ->
  expect Om (fun y => r_var_lambda (est y)) = r_var_lambda r0 - mean_variance Om m (length l) /\
  expect Om (fun y => r_var_mu (est y)) = r_var_mu r0 - mean_variance Om m (length l) /\
  (single_spells l -> expect Om (fun y => r_cov (est y)) = r_cov r0 - mean_variance Om m (length l)).
Proof. intros S So _ _. exact (c76_noise sort_j sort_rows has_w alternative weighted l Om m est r0 after0 S So). Qed.
Print Assumptions C76_uncorrelated_noise_partial.

(* A worker-firm pair observed twice, which the check for returns accepts: the
   covariance multiplies a wage with itself and its noise stays. *)
Theorem C76_repeated_pairs_refuted sort_j sort_rows has_w alternative weighted :
  is_sort_j sort_j -> (weighted && has_w)%bool = false ->
  exists l Om m est r0 after0, is_space Om /\ (forall p, expect Om (fun y => y p) = m p) /\
  (forall p q, p <> q -> expect Om (fun y => y p * y q) = m p * m q) /\ sorted_by bi l /\ two_obs bi l /\ two_obs bj l /\
  (forall y, exists after, fit sort_j sort_rows true has_w alternative weighted (with_wages l y) = Ok (est y, after)) /\
  fit sort_j sort_rows true has_w alternative weighted (with_wages l m) = Ok (r0, after0) /\
  r_cov r0 - mean_variance Om m (length l) < 0 < expect Om (fun y => r_cov (est y)).
Proof. exact (c76_refuted sort_j sort_rows has_w alternative weighted). Qed.
Print Assumptions C76_repeated_pairs_refuted.

Example C76_case :
  is_space coin /\ (forall p, expect coin (fun y => y p) = 0) /\ (forall p q, p <> q -> expect coin (fun y => y p * y q) = 0 * 0) /\
  single_spells (four 1 2 5 9 1 1) /\ sorted_by bi (four 1 2 5 9 1 1) /\ two_obs bi (four 1 2 5 9 1 1) /\ two_obs bj (four 1 2 5 9 1 1) /\
  mean_variance coin (fun _ => 0) 4 = 1 / 16.
Proof.
  split; [exact coin_space|]. split; [exact coin_mean|]. split; [exact coin_uncor|]. split; [apply four_single|]. split; [apply four_sorted|].
  split; [apply four_two_i|]. split; [apply four_two_j|]. unfold mean_variance, expect, coin, average, shock. cbn. field.
Qed.
