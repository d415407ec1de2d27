(* C92 (the samples of the bootstrap and the decomposition of the dynamic model are
   drawn from the estimated model) and C93 (they leave the data as they were). *)
From Verif Require Import Base UtilModel UtilSpec BLMModel BLMSpec BLMRunSpec BLMRealModel
  DBLMModel DBLMSpec DBootModel DBootSpec DBootLemmas DBootPropLemmas.
Local Open Scope R_scope.

(* C92.  The wages simulated for a mover of type l are, each, the mean of the
   likelihood given the wages it depends on plus the standard deviation of the
   likelihood times a shock of its own; and no other wages are. *)
Theorem C92_mover_wages : forall p l k1 k2 y z,
  y = mover_wages p l k1 k2 z <-> mover_shocks p l k1 k2 y z.
Proof.
  exact (fun p l k1 k2 y z => conj
    (fun E => eq_ind_r (fun y => mover_shocks p l k1 k2 y z) (mover_wages_ok p l k1 k2 z) E)
    (mover_shocks_wages p l k1 k2 y z)).
Qed.
Print Assumptions C92_mover_wages.

Theorem C92_stayer_wages : forall p l k y z, 0 <= dS p T2s l k ->
  (y = stayer_wages p l k z <-> stayer_shocks p l k y z).
Proof.
  exact (fun p l k y z H => conj
    (fun E => eq_ind_r (fun y => stayer_shocks p l k y z) (stayer_wages_ok p l k z H) E)
    (stayer_shocks_wages p l k y z H)).
Qed.
Print Assumptions C92_stayer_wages.

(* C92.  So the density of the likelihood is the density of the simulated wages: that
   of the shocks divided by the standard deviations (the shocks determine the wages
   one after the other, so this product is the Jacobian). *)
Theorem C92_mover_density : forall p l k1 k2 y z,
  let o := row_of y k1 k2 in
  let s1 := sqrt (dvar1 p (sq (dS p)) o l) in
  let s2 := sqrt (dvar2 (sq (dS p)) (sqb (dSb p)) o l) in
  let s3 := sqrt (dvar3 p (sq (dS p)) (sqb (dSb p)) o l) in
  let s4 := sqrt (dvar4 p (sq (dS p)) o l) in
  0 < s1 -> 0 < s2 -> 0 < s3 -> 0 < s4 ->
  y = mover_wages p l k1 k2 z ->
  dmover_density p o l * (s1 * s2 * s3 * s4) = shock_density z.
Proof.
  exact (fun p l k1 k2 y z P1 P2 P3 P4 E =>
    mover_change p l k1 k2 y z P1 P2 P3 P4 (proj1 (C92_mover_wages p l k1 k2 y z) E)).
Qed.
Print Assumptions C92_mover_density.

Theorem C92_stayer_density : forall p l k y z,
  let o := row_of y k k in
  let s1 := sqrt (svar1 p o l) in
  let s2 := dS p T2s l k in
  let s3 := sqrt (svar3 p (sq (dS p)) o l) in
  let s4 := sqrt (svar4 p o l) in
  0 < s1 -> 0 < s2 -> 0 < s3 -> 0 < s4 ->
  y = stayer_wages p l k z ->
  dstayer_density p o l * (s1 * s2 * s3 * s4) = shock_density z.
Proof.
  exact (fun p l k y z P1 P2 P3 P4 E =>
    stayer_change p l k y z P1 P2 P3 P4 (proj1 (C92_stayer_wages p l k y z (Rlt_le _ _ P2)) E)).
Qed.
Print Assumptions C92_stayer_density.

(* C92.  The t-th model of the bootstrap is the estimator's answer on data that have
   the caller's workers and firms; whose wages are drawn from the model given (or
   estimated from the caller's data) at the caller's own firm types; and whose firm
   types are those of one clustering of the firms of this very sample: the firm of
   the first period in periods 1 and 2, that of the last period in periods 3 and 4. *)
Theorem C92_bootstrap : forall nl nk realloc gen estimator cluster model n jd sd fr ms p q1 q0,
  dboot_fit nl nk realloc estimator cluster gen model n jd sd = (fr, Ok ms) ->
  match model with Some p0 => p = p0 | None => estimator 0%nat jd sd = Ok p end ->
  (forall t, dchoices_ok nl (gen t)) -> (forall l k, 0 <= dS p T2s l k) ->
  dtype_shares nl nk realloc p q1 q0 ->
  (forall k1 k2, (k1 < nk)%nat -> (k2 < nk)%nat -> prob_row nl (q1 (k1 + nk * k2)%nat)) ->
  (forall k, (k < nk)%nat -> prob_row nl (q0 k)) ->
  length ms = n /\
  forall t d, (t < n)%nat -> exists jt st jc sc c Lm Ls,
    estimator (S t) jt st = Ok (nth t ms d) /\ same_rows jd jt /\ same_rows sd st /\
    cluster t jc sc = Ok c /\ same_rows jd jc /\ same_rows sd sc /\
    ewages jc = ewages jt /\ ewages sc = ewages st /\
    firm_types jt = map (fun q => Q4 (c (at1 q)) (c (at1 q)) (c (at4 q)) (c (at4 q))) (firm_ids jd) /\
    firm_types st = map (fun q => Q4 (c (at1 q)) (c (at1 q)) (c (at1 q)) (c (at1 q))) (firm_ids sd) /\
    ddrawn_from nl nk p q1 q0 (gen t) jd sd (ewages jt) (ewages st) Lm Ls.
Proof. exact dboot_drawn. Qed.
Print Assumptions C92_bootstrap.

(* C92.  The t-th decomposition is the regression's on such a draw; worker ids are the
   drawn types if worker_types_as_ids; firm ids of the first and the last period are
   firm types if firm_clusters_as_ids. *)
Theorem C92_decomposition : forall nl nk realloc gen estimator fe cl ty model n jd sd fr ms p q1 q0,
  dvd_fit nl nk realloc estimator gen fe cl ty model n jd sd = (fr, Ok ms) -> model = Some p ->
  (forall t, dchoices_ok nl (gen t)) -> (forall l k, 0 <= dS p T2s l k) ->
  dtype_shares nl nk realloc p q1 q0 ->
  (forall k1 k2, (k1 < nk)%nat -> (k2 < nk)%nat -> prob_row nl (q1 (k1 + nk * k2)%nat)) ->
  (forall k, (k < nk)%nat -> prob_row nl (q0 k)) ->
  length ms = n /\
  forall t d, (t < n)%nat -> exists jt st Lm Ls,
    fe t jt st = Ok (nth t ms d) /\
    firm_types jt = firm_types jd /\ firm_types st = firm_types sd /\
    map j14 jt = (if cl then map g14 jd else map j14 jd) /\
    map j1_of st = (if cl then map g1_of sd else map j1_of sd) /\
    worker_ids jt = (if ty then Lm else worker_ids jd) /\
    worker_ids st = (if ty then Ls else worker_ids sd) /\
    ddrawn_from nl nk p q1 q0 (gen t) jd sd (ewages jt) (ewages st) Lm Ls.
Proof. exact dvd_drawn. Qed.
Print Assumptions C92_decomposition.

(* C92 fails for the decomposition with firm_clusters_as_ids: in the second and the
   third period the regression gets the firms' own ids, so one column of firm ids
   mixes firm types (periods 1 and 4) and firms (periods 2 and 3). *)
Theorem C92_firm_types_as_ids_refuted : forall nl nk realloc gen estimator fe ty model n jd sd fr ms,
  dvd_fit nl nk realloc estimator gen fe true ty model n jd sd = (fr, Ok ms) ->
  forall t d, (t < n)%nat -> exists jt st,
    fe t jt st = Ok (nth t ms d) /\
    firm_ids jt = map (fun f => Q4 (at1 (e_g f)) (at2 (e_j f)) (at3 (e_j f)) (at4 (e_g f))) jd /\
    firm_ids st = map (fun f => Q4 (at1 (e_g f)) (at2 (e_j f)) (at3 (e_j f)) (at1 (e_g f))) sd.
Proof. exact dvd_ids. Qed.
Print Assumptions C92_firm_types_as_ids_refuted.

(* C92 fails with reallocate=True, reallocate_jointly=False for the periods 'second'
   and 'all': every simulation raises. *)
Theorem C92_reallocate_refuted : forall nl nk p per g gj gs, per = RSecond \/ per = RAll ->
  dsimulate nl nk p (Some (false, per)) g gj gs = Err UnboundLocalError.
Proof. exact dsimulate_unbound. Qed.
Print Assumptions C92_reallocate_refuted.

(* C93.  A bootstrap that returns gives the requested number of models and leaves the
   frames of movers and stayers as they were. *)
Theorem C93_bootstrap : forall nl nk realloc gen estimator cluster model n jd sd fr ms,
  dboot_fit nl nk realloc estimator cluster gen model n jd sd = (fr, Ok ms) ->
  Forall mover_row jd -> Forall stayer_row sd -> fr = (jd, sd) /\ length ms = n.
Proof.
  exact (fun nl nk realloc gen estimator cluster model n jd sd fr ms E Mv St =>
    let H := dboot_fit_inv nl nk realloc gen estimator cluster model n jd sd fr ms E in
    conj (proj1 H Mv St) (proj1 (proj2 H))).
Qed.
Print Assumptions C93_bootstrap.

(* C93.  A decomposition that returns leaves the movers as they were, and the stayers
   too without firm_clusters_as_ids. *)
Theorem C93_decomposition_partial : forall nl nk realloc gen estimator fe cl ty model n jd sd fr ms,
  dvd_fit nl nk realloc estimator gen fe cl ty model n jd sd = (fr, Ok ms) ->
  fst fr = jd /\ (cl = false -> snd fr = sd) /\ length ms = n /\ (0 < n)%nat.
Proof. exact dvd_left. Qed.
Print Assumptions C93_decomposition_partial.

(* C93 fails for the decomposition with firm_clusters_as_ids: after every run, the firm
   ids of the stayers' first period are firm types. *)
Theorem C93_decomposition_refuted : forall nl nk realloc gen estimator fe ty model n jd sd fr ms,
  dvd_fit nl nk realloc estimator gen fe true ty model n jd sd = (fr, Ok ms) ->
  map (fun f => at1 (e_j f)) (snd fr) = map (fun f => at1 (e_g f)) sd /\
  (Exists (fun f => at1 (e_j f) <> at1 (e_g f)) sd -> snd fr <> sd).
Proof.
  exact (fun nl nk realloc gen estimator => dvd_not_restored nl nk realloc estimator gen).
Qed.
Print Assumptions C93_decomposition_refuted.

(* C93 fails if something raises. *)
Theorem C93_bootstrap_error_refuted : exists estimator fr,
  dboot_fit 2 2 None estimator (fun _ _ _ => Ok e_cluster) (fun _ => e_rng) None 1 e_jd e_sd = (fr, Err LinAlgError) /\
  ewages (fst fr) <> ewages e_jd /\ firm_types (fst fr) <> firm_types e_jd.
Proof. exact (ex_intro _ _ dboot_error). Qed.
Print Assumptions C93_bootstrap_error_refuted.

Theorem C93_decomposition_error_refuted : exists fe fr,
  dvd_fit 2 2 None (fun _ _ _ => Ok e_par) (fun _ => e_rng) fe true true (Some e_par) 1
    e_jd e_sd = (fr, Err LinAlgError) /\
  ewages (fst fr) <> ewages e_jd /\ firm_ids (fst fr) <> firm_ids e_jd /\ worker_ids (fst fr) <> worker_ids e_jd.
Proof. exact (ex_intro _ _ dvd_error). Qed.
Print Assumptions C93_decomposition_error_refuted.

(* Two movers and two stayers, two worker and two firm types. *)
Example C92_case : exists fr ms,
  dvd_fit 2 2 (Some (true, RAll)) (fun _ _ _ => Ok e_par) (fun _ => e_rng) (fun _ _ _ => Ok [1]) true true (Some e_par) 2
    e_jd e_sd = (fr, Ok ms) /\
  exists q1 q0, dtype_shares 2 2 (Some (true, RAll)) e_par q1 q0 /\
    forall k, prob_row 2 (q1 k) /\ prob_row 2 (q0 k).
Proof. exact dvd_case. Qed.
Example C93_case : exists fr ms,
  dboot_fit 2 2 None (fun _ _ _ => Ok e_par) (fun _ _ _ => Ok e_cluster) (fun _ => e_rng) None 3 e_jd e_sd = (fr, Ok ms) /\
  Forall mover_row e_jd /\ Forall stayer_row e_sd /\ dchoices_ok 2 e_rng /\
  (forall l k, 0 <= dS e_par T2s l k) /\
  (forall k, prob_row 2 (dpk1 e_par k) /\ prob_row 2 (dpk0 e_par k)).
Proof. exact dboot_case. Qed.
