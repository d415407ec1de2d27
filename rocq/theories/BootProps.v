(* C43 (draws), C66 (the bootstrap and the variance decomposition leave the data as they were)
   and C85 (their samples are drawn from the estimated model). *)
From Verif Require Import Base UtilModel UtilSpec BLMModel BLMEMModel BLMSpec BLMRunSpec BLMRealModel
  BootModel BootSpec BootLemmas BootPropLemmas.
Local Open Scope R_scope.

(* C43.  The type of each mover is drawn from the proportions of its own pair of firm
   types. *)
Theorem C43_draws : forall nl nk pk1 g gj, choices_ok nl g ->
  (forall k1 k2, (k1 < nk)%nat -> (k2 < nk)%nat -> prob_row nl (prop_of nk pk1 k1 k2)) ->
  Forall (fun q => (fst q < nk)%nat /\ (snd q < nk)%nat) gj ->
  length (draw_movers nk pk1 g gj) = length gj /\
  forall r, (r < length gj)%nat ->
    let q := nth r gj (0, 0)%nat in
    (nth r (draw_movers nk pk1 g gj) 0 < nl)%nat /\
    0 < prop_of nk pk1 (fst q) (snd q) (nth r (draw_movers nk pk1 g gj) 0%nat).
Proof. exact draw_movers_ok. Qed.
Print Assumptions C43_draws.

(* C66.  A bootstrap that returns gives the requested number of models and leaves the
   frames of movers and stayers as they were, whatever the estimator and the
   clustering do. *)
Theorem C66_bootstrap : forall nl nk realloc estimator cluster gen blm_model n jd sd fr ms,
  boot_fit nl nk realloc estimator cluster gen blm_model n jd sd = (fr, Ok ms) ->
  Forall stayer sd -> fr = (jd, sd) /\ length ms = n.
Proof.
  exact (fun nl nk realloc estimator cluster gen bm n jd sd fr ms E St =>
    let H := boot_fit_inv nl nk realloc estimator cluster gen bm n jd sd fr ms E in
    conj (proj1 H St) (proj1 (proj2 H))).
Qed.
Print Assumptions C66_bootstrap.

(* C66.  So does the variance decomposition, which replaces firm and worker ids and
   adds a column on the way. *)
Theorem C66_decomposition : forall nl nk realloc estimator gen fe cl ty blm_model n J S0 fr ms,
  vd_fit nl nk realloc estimator gen fe cl ty blm_model n J S0 = (fr, Ok ms) ->
  Forall stayer (tf_rows S0) -> fr = (J, S0) /\ length ms = n /\ (0 < n)%nat.
Proof.
  exact (fun nl nk realloc estimator gen fe cl ty bm n J S0 fr ms E St =>
    let H := vd_fit_inv nl nk realloc estimator gen fe cl ty bm n J S0 fr ms E in
    conj (proj1 H St) (conj (proj1 (proj2 H)) (proj1 (proj2 (proj2 H))))).
Qed.
Print Assumptions C66_decomposition.

(* C66 fails if the estimator raises: wages and firm types stay replaced. *)
Theorem C66_bootstrap_error_refuted : exists estimator fr,
  boot_fit 1 2 None estimator (fun _ _ _ => Ok b_cluster) (fun _ => b_rng) None 1 b_jd b_sd = (fr, Err LinAlgError) /\
  wages (fst fr) <> wages b_jd /\ types (fst fr) <> types b_jd.
Proof. exact (ex_intro _ _ boot_error). Qed.
Print Assumptions C66_bootstrap_error_refuted.

(* ... and so do ids, and the added column. *)
Theorem C66_decomposition_error_refuted : exists fe fr,
  vd_fit 1 2 None (fun _ _ _ => Ok b_par) (fun _ => b_rng) fe true true (Some b_par) 1
    (mktframe b_jd false) (mktframe b_sd false) = (fr, Err LinAlgError) /\
  wages (tf_rows (fst fr)) <> wages b_jd /\ firms (tf_rows (fst fr)) <> firms b_jd /\
  ids (tf_rows (fst fr)) <> ids b_jd /\ tf_t (fst fr) = true.
Proof. exact (ex_intro _ _ vd_error). Qed.
Print Assumptions C66_decomposition_error_refuted.

(* C66: with n_samples = 0 the decomposition always raises, and leaves the column. *)
Theorem C66_no_samples_refuted : forall nl nk realloc estimator gen fe p J S0,
  vd_fit nl nk realloc estimator gen fe false false (Some p) 0 J S0 =
  ((mktframe (tf_rows J) true, mktframe (tf_rows S0) true), Err IndexError).
Proof. exact vd_no_samples. Qed.
Print Assumptions C66_no_samples_refuted.

(* C85.  The t-th model of the bootstrap is the estimator's answer on data that have
   the workers, firms, weights and controls of the caller's; whose wages are drawn
   from the estimated model at the caller's own firm types (not those of the previous
   sample), with worker types that have positive probability for these firm types; and
   whose firm types are those of one clustering of the firms of this very sample. *)
Theorem C85_bootstrap : forall nl nk realloc gen estimator cluster blm_model n jd sd fr ms p q1 q0,
  boot_fit nl nk realloc estimator cluster gen blm_model n jd sd = (fr, Ok ms) ->
  match blm_model with Some p0 => p = p0 | None => estimator 0%nat jd sd = Ok p end ->
  (forall t, choices_ok nl (gen t)) -> shapes_ok p ->
  (forall l k, 0 <= S1 p l k) -> (forall l k, 0 <= S2 p l k) ->
  type_shares nl nk realloc p q1 q0 ->
  (forall k1 k2, (k1 < nk)%nat -> (k2 < nk)%nat -> prob_row nl (q1 (k1 + nk * k2)%nat)) ->
  (forall k, (k < nk)%nat -> prob_row nl (q0 k)) ->
  length ms = n /\
  forall t d, (t < n)%nat -> exists jt st jc sc c Lm Ls,
    estimator (S t) jt st = Ok (nth t ms d) /\
    Forall2 same_worker jd jt /\ Forall2 same_worker sd st /\
    cluster t jc sc = Ok c /\
    Forall2 same_worker jd jc /\ Forall2 same_worker sd sc /\ wages jc = wages jt /\ wages sc = wages st /\
    types jt = map (fun ab => (c (fst ab), c (snd ab))) (firms jd) /\
    types st = map (fun ab => (c (fst ab), c (fst ab))) (firms sd) /\
    drawn_from nl nk p q1 q0 (gen t) jd sd jt st Lm Ls.
Proof. exact boot_drawn. Qed.
Print Assumptions C85_bootstrap.

(* C85.  The t-th decomposition is the regression's on such a draw; firm ids are firm
   types if clusters_as_ids, worker ids are the drawn types if types_as_ids. *)
Theorem C85_decomposition : forall nl nk realloc gen estimator fe cl ty blm_model n J S0 fr ms p q1 q0,
  vd_fit nl nk realloc estimator gen fe cl ty blm_model n J S0 = (fr, Ok ms) -> blm_model = Some p ->
  (forall t, choices_ok nl (gen t)) -> shapes_ok p ->
  (forall l k, 0 <= S1 p l k) -> (forall l k, 0 <= S2 p l k) ->
  type_shares nl nk realloc p q1 q0 ->
  (forall k1 k2, (k1 < nk)%nat -> (k2 < nk)%nat -> prob_row nl (q1 (k1 + nk * k2)%nat)) ->
  (forall k, (k < nk)%nat -> prob_row nl (q0 k)) ->
  length ms = n /\
  forall t d, (t < n)%nat -> exists jt st Lm Ls,
    fe t jt st = Ok (nth t ms d) /\
    Forall2 same_types (tf_rows J) jt /\ Forall2 same_types (tf_rows S0) st /\
    firms jt = (if cl then types (tf_rows J) else firms (tf_rows J)) /\
    map fst (firms st) = map fst (if cl then types (tf_rows S0) else firms (tf_rows S0)) /\
    ids jt = (if ty then Lm else ids (tf_rows J)) /\
    ids st = (if ty then Ls else ids (tf_rows S0)) /\
    drawn_from nl nk p q1 q0 (gen t) (tf_rows J) (tf_rows S0) jt st Lm Ls.
Proof. exact vd_drawn. Qed.
Print Assumptions C85_decomposition.

(* C85: with unit weights the wages of a draw have the model's means and deviations. *)
Theorem C85_unweighted : forall p l f z, w1 (f_o f) = 1 -> w2 (f_o f) = 1 ->
  wage1_of p l f z = mu1 p l (f_o f) + sqrt (var1 p l (f_o f)) * z /\
  wage2_of p l f z = mu2 p l (f_o f) + sqrt (var2 p l (f_o f)) * z.
Proof. exact wage_unweighted. Qed.
Print Assumptions C85_unweighted.

(* C85 fails with weights.  The estimated likelihood raises a wage's density to its
   weight, which is, up to a constant, the density with the deviation divided by the
   root of the weight; the simulated wage divides by the weight. *)
Theorem C85_weights_refuted : forall p l f z,
  0 < var1 p l (f_o f) -> 0 < w1 (f_o f) -> w1 (f_o f) <> 1 -> z <> 0 ->
  (exists C, 0 < C /\ forall y,
     Rpower (normal_density y (mu1 p l (f_o f)) (sqrt (var1 p l (f_o f)))) (w1 (f_o f)) =
     C * normal_density y (mu1 p l (f_o f)) (sqrt (var1 p l (f_o f)) / sqrt (w1 (f_o f)))) /\
  wage1_of p l f z <> mu1 p l (f_o f) + sqrt (var1 p l (f_o f)) / sqrt (w1 (f_o f)) * z.
Proof. exact wage_weights. Qed.
Print Assumptions C85_weights_refuted.

(* Two movers and two stayers, two firm types; three samples, firm types swapped by
   every clustering. *)
Example C66_case : exists fr ms,
  boot_fit 1 2 None (fun _ _ _ => Ok b_par) (fun _ _ _ => Ok b_cluster) (fun _ => b_rng) None 3 b_jd b_sd = (fr, Ok ms) /\
  Forall stayer b_sd /\ choices_ok 1 b_rng /\ shapes_ok b_par /\
  (forall l k, 0 <= S1 b_par l k /\ 0 <= S2 b_par l k) /\
  (forall k, prob_row 1 (pk1 b_par k) /\ prob_row 1 (pk0 b_par k)).
Proof. exact boot_case. Qed.
Example C85_case : exists fr ms,
  vd_fit 1 2 None (fun _ _ _ => Ok b_par) (fun _ => b_rng) (fun _ _ _ => Ok [1]) true true (Some b_par) 2
    (mktframe b_jd false) (mktframe b_sd true) = (fr, Ok ms).
Proof. exact vd_case. Qed.
