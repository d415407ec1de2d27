(* C98: the joint statements and a case. *)
From Verif Require Import Base BaseLemmas UtilModel UtilSpec ConsModel ConsSpec ConsLemmas ConsBuild2Lemmas ConsPropLemmas BLMModel BLMEMModel BLMSpec
  BLMSortLemmas BLMFitModel BLMPropLemmas DBLMModel DBLMSpec DBLMEMSpec DBLMSortLemmas DBLMLikLemmas DBLMRegLemmas DBLMPropLemmas
  DConsSpec DConsLemmas.
From Coq Require Import Lia Lra ClassicalEpsilon.
Local Open Scope res_scope.
Local Open Scope R_scope.

(* The ideal solver, for problems of which the sizes agree. *)
Definition sized_solver (n : nat) (P : mat) (q : list R) (pb : problem) : qpres :=
  if excluded_middle_informative (fits n pb) then ideal_solver n P q pb else QValueError.
Lemma sized_checks : checks_sizes sized_solver.
Proof. intros n P q pb x. unfold sized_solver. destruct (excluded_middle_informative _); [trivial|discriminate]. Qed.

Lemma effects_either argsort solver pp nl nk c o nt cm cs md sd p1 q1 l1 ls1 p0 q0 l0 ls0 :
  (forall l, is_argsort l (argsort l)) -> checks_sizes solver -> (0 < nl)%nat -> (0 < nk)%nat ->
  In o (dcons_a c ++ dcons_a_all c) -> valid nt nl nk o -> restricts nl nk o ->
  dfit_movers argsort solver pp nl nk c cm md p1 = Ok (q1, l1, ls1) ->
  dfit_stayers argsort solver nl nk c cs sd p0 = Ok (q0, l0, ls0) ->
  nt <> 2%nat /\ dA q0 = dA p0 \/
  nt = 2%nat /\ exists s, relabelling nl s /\
    (forall a l k, (l < nl)%nat -> (k < nk)%nat -> dA q1 a l k = dA p1 a (s l) k) /\
    (forall b k, (k < nk)%nat -> dAb q1 b k = dAb p1 b k).
Proof.
  intros Ha Hs Hl Hk Hin V Hr E1 E0. destruct (Nat.eq_dec nt 2) as [->|Hn].
  - right. split; [reflexivity|].
    assert (N : 2%nat <> nt_movers c) by (pose proof (nt_movers_ge nl nk Hl Hk c); lia).
    refine (movers_A_stuck argsort solver pp nl nk Ha Hs Hl Hk c 2 o _ _ _ _ _ _ Hin V N Hr E1).
  - left. split; [exact Hn|]. refine (stayers_A_stuck argsort solver nl nk Ha Hs Hl Hk c nt o _ _ _ _ _ _ Hin V Hn Hr E0).
Qed.
Lemma spread_either argsort solver pp nl nk c o nt cm cs md sd p1 q1 l1 ls1 p0 q0 l0 ls0 :
  (forall l, is_argsort l (argsort l)) -> checks_sizes solver -> (0 < nl)%nat -> (0 < nk)%nat ->
  In o (dcons_s c ++ dcons_s_all c) -> valid nt nl nk o -> restricts nl nk o ->
  dfit_movers argsort solver pp nl nk c cm md p1 = Ok (q1, l1, ls1) ->
  dfit_stayers argsort solver nl nk c cs sd p0 = Ok (q0, l0, ls0) ->
  nt <> 2%nat /\ dS q0 = dS p0 \/
  nt = 2%nat /\ exists s, relabelling nl s /\
    (forall a l k, (l < nl)%nat -> (k < nk)%nat -> dS q1 a l k = dS p1 a (s l) k) /\
    (forall b k, (k < nk)%nat -> dSb q1 b k = dSb p1 b k).
Proof.
  intros Ha Hs Hl Hk Hin V Hr E1 E0. destruct (Nat.eq_dec nt 2) as [->|Hn].
  - right. split; [reflexivity|].
    assert (N : 2%nat <> nt_movers c) by (pose proof (nt_movers_ge nl nk Hl Hk c); lia).
    refine (movers_S_stuck argsort solver pp nl nk Ha Hs Hl Hk c 2 o _ _ _ _ _ _ Hin V N Hr E1).
  - left. split; [exact Hn|]. refine (stayers_S_stuck argsort solver nl nk Ha Hs Hl Hk c nt o _ _ _ _ _ _ Hin V Hn Hr E0).
Qed.
Lemma refused_either argsort solver pp nl nk c o nt cm cs md sd p1 p0 :
  (0 < nl)%nat -> (0 < nk)%nat ->
  In o (dcons_s c ++ dcons_s_all c) -> valid nt nl nk o -> restricts_le nl nk o ->
  nt <> 2%nat /\ (forall r, dfit_stayers argsort solver nl nk c cs sd p0 <> Ok r) \/
  nt = 2%nat /\ (forall r, dfit_movers argsort solver pp nl nk c cm md p1 <> Ok r).
Proof.
  intros Hl Hk Hin V Hr. destruct (Nat.eq_dec nt 2) as [->|Hn].
  - right. split; [reflexivity|]. intros r.
    assert (N : 2%nat <> nt_movers c) by (pose proof (nt_movers_ge nl nk Hl Hk c); lia).
    refine (movers_S_refused argsort solver pp nl nk Hl Hk c 2 o _ _ _ _ Hin V N Hr).
  - left. split; [exact Hn|]. intros r. refine (stayers_S_refused argsort solver nl nk Hl Hk c nt o _ _ _ _ Hin V Hn Hr).
Qed.

(* ---- a case: effects that are not negative ---- *)
Definition k_set : dsettings :=
  mkdset true true false false false false true false false true false false 1 1 0 1 1 1 1 (1/100)
    [CBoundedBelow 0 6] [] [] [].
Lemma below_restricts lb nt nl nk : (0 < nt)%nat -> (0 < nl)%nat -> (0 < nk)%nat -> restricts_le nl nk (CBoundedBelow lb nt).
Proof.
  intros H1 H2 H3. destruct (BoundedBelow_spec lb nt nl nk) as (d & E & _ & M). exists d, (fun _ => lb - 1). split; [exact E|].
  intros S. assert (S' : sat d (fun _ => lb - 1)).
  { split; [exact S|]. cbn in E. injection E as <-. exact I. }
  specialize (proj1 (M _) S' 0%nat 0%nat 0%nat H1 H2 H3). unfold eff. lra.
Qed.
Lemma le_restricts nl nk o : restricts_le nl nk o -> restricts nl nk o.
Proof. intros (d & x & E & H). exists d, x. split; [exact E|]. intros [S _]. exact (H S). Qed.

Lemma k_stayers : exists q lik liks, dfit_stayers isort sized_solver 2 2 k_set true v_data v_par = Ok (q, lik, liks).
Proof.
  destruct (dlp_stayers_spec 2 2 v_par v_data ltac:(lia) v_stayers) as (st & lp & E0 & E1 & E2 & E3).
  unfold dfit_stayers. rewrite E0. cbn [bind].
  destruct (dgen_constraints 2 2 k_set false) as [cons|] eqn:Eg.
  2:{ exfalso. revert Eg. unfold dgen_constraints. cbn. discriminate. }
  cbn [bind]. change (dn_iters_stayers k_set) with 1%nat. cbn [dstayers_loop]. rewrite E1. cbn [bind]. rewrite E2. cbn [bind].
  rewrite E3. cbn [bind converged]. unfold dem_update_stayers.
  cbn [k_set up_pk0 up_rho32s up_a_stayers up_s_stayers Nat.ltb Nat.leb andb orb bind].
  eexists _, _, _. reflexivity.
Qed.
Lemma sized_exact : dexact sized_solver.
Proof.
  intros n P q pb x. unfold sized_solver. destruct (excluded_middle_informative _); [|discriminate]. apply ideal_exact.
Qed.
Lemma k_movers : exists q lik liks, dfit_movers isort sized_solver PFirst 2 2 k_set true v_data v_par = Ok (q, lik, liks).
Proof.
  destruct (fit_movers_thm isort sized_solver PFirst 2 2 k_set true v_data v_par isort_ok sized_exact)
    as (s0 & p0 & p1 & s1 & p2 & lik & ls & _ & _ & _ & _ & _ & _ & E & _);
    [lia| |cbn [k_set ds_lower_bound]; lra|cbn [k_set dd_prior]; lra|discriminate|exact v_movers| | |].
  - intros o [<-|[]]. reflexivity.
  - split; discriminate.
  - split; discriminate.
  - eexists _, _, _. exact E.
Qed.
Lemma k_case : exists q1 l1 ls1 q0 l0 ls0,
  dfit_movers isort sized_solver PFirst 2 2 k_set true v_data v_par = Ok (q1, l1, ls1) /\
  dfit_stayers isort sized_solver 2 2 k_set true v_data v_par = Ok (q0, l0, ls0) /\ dA q0 = dA v_par /\
  nt_movers k_set = 6%nat /\ valid 6 2 2 (CBoundedBelow 0 6).
Proof.
  destruct k_movers as (q1 & l1 & ls1 & E1). destruct k_stayers as (q & lik & liks & E).
  exists q1, l1, ls1, q, lik, liks. split; [exact E1|]. split; [exact E|]. split; [|split; reflexivity].
  refine (stayers_A_stuck isort sized_solver 2 2 isort_ok sized_checks _ _ k_set 6 (CBoundedBelow 0 6) _ _ _ _ _ _ _ _ _ _ E);
    [lia|lia|left; reflexivity|reflexivity|lia|]. apply le_restricts, below_restricts; lia.
Qed.
(* ---- standard deviations of at most three ---- *)
Definition ks_set : dsettings :=
  mkdset false false false false false false true false false true true false 1 1 0 1 1 1 1 (1/100)
    [] [] [CBoundedAbove 3 4] [].
Lemma above_restricts ub nt nl nk : (0 < nt)%nat -> (0 < nl)%nat -> (0 < nk)%nat -> restricts_le nl nk (CBoundedAbove ub nt).
Proof.
  intros H1 H2 H3. destruct (BoundedAbove_spec ub nt nl nk) as (d & E & _ & M). exists d, (fun _ => ub + 1). split; [exact E|].
  intros S. assert (S' : sat d (fun _ => ub + 1)).
  { split; [exact S|]. cbn in E. injection E as <-. exact I. }
  specialize (proj1 (M _) S' 0%nat 0%nat 0%nat H1 H2 H3). unfold eff. lra.
Qed.
Lemma ks_case : exists e,
  dfit_stayers isort sized_solver 2 2 ks_set true v_data v_par = Err e /\ restricts_le 2 2 (CBoundedAbove 3 4).
Proof.
  destruct (dfit_stayers isort sized_solver 2 2 ks_set true v_data v_par) as [r|e] eqn:E.
  - exfalso. revert E. refine (stayers_S_refused isort sized_solver 2 2 _ _ ks_set 4 (CBoundedAbove 3 4) _ _ _ _ _ _ _ _);
      [lia|lia|left; reflexivity|reflexivity|lia|apply above_restricts; lia].
  - exists e. split; [reflexivity|]. apply above_restricts; lia.
Qed.
