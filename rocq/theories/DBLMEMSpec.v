(* What one iteration and a whole fit of the dynamic BLM estimator should do. *)
From Verif Require Import Base UtilModel UtilSpec ConsModel ConsSpec BLMModel BLMSpec BLMFitModel
  DBLMModel DBLMSpec.
Local Open Scope R_scope.

(* Sum of a function of rows and worker types with probabilities q. *)
Definition total (nl : nat) (q fit : dobs -> nat -> R) (data : list dobs) : R :=
  rsum (map (fun o => sumn nl (fun l => q o l * fit o l)) data).
(* r is the least-squares coefficient: no other gives a smaller total. *)
Definition least (loss : R -> R) (r : R) : Prop := forall r', loss r <= loss r'.

(* ---- movers ---- *)
Section Movers.
Variable solver : nat -> mat -> list R -> problem -> qpres.
Variables (nl nk : nat) (c : dsettings) (data : list dobs).
Let ts := periods_movers (endogeneity c) (state_dependence c).

(* The rows of movers between two firm types, their posterior probabilities of
   each worker type plus the prior: the new proportions are their shares. *)
Definition pair_count (p : dpar) (k1 k2 l : nat) : R :=
  rsum (map (fun o => mover_posterior nl nk p o l + dd_prior c - 1)
          (filter (fun o => (dg1 o =? k1)%nat && (dg4 o =? k2)%nat)%bool data)).

(* Wages left to be explained by rho, and by which wages *)
Definition rho12_loss (p : dpar) (r : R) : R :=
  total nl (mover_posterior nl nk p) (fun o l =>
    (dy1 o - dA p T12 l (dg1 o) - r * (dy2 o - dA p T2ma l (dg1 o))) ^ 2
    / dvar1 p (sq (dS p)) o l) data.
Definition rho43_loss (p : dpar) (r : R) : R :=
  total nl (mover_posterior nl nk p) (fun o l =>
    (dy4 o - dA p T43 l (dg4 o) - r * (dy3 o - dA p T3ma l (dg4 o))) ^ 2
    / dvar4 p (sq (dS p)) o l) data.
Definition rho32m_loss (p : dpar) (r : R) : R :=
  total nl (mover_posterior nl nk p) (fun o l =>
    (dy3 o - (dA p T3ma l (dg4 o) + dAb p T3mb (dg1 o)) - r * (dy2 o - mean2 (dA p) (dAb p) o l)) ^ 2
    / dvar3 p (sq (dS p)) (sqb (dSb p)) o l) data.
(* some row and type has a residual to regress on *)
Definition regressor12 (p : dpar) : Prop :=
  exists o l, In o data /\ (l < nl)%nat /\ dy2 o <> dA p T2ma l (dg1 o).
Definition regressor43 (p : dpar) : Prop :=
  exists o l, In o data /\ (l < nl)%nat /\ dy3 o <> dA p T3ma l (dg4 o).
Definition regressor32m (p : dpar) : Prop :=
  exists o l, In o data /\ (l < nl)%nat /\ dy2 o <> mean2 (dA p) (dAb p) o l.

(* Effects: they satisfy the user's constraints, the 'b' effects depend only on
   the firm type, and no other such effects fit the wages better.  The fit is
   measured with the parameters p. *)
Definition A_loss (p : dpar) (A : aper -> mat) (Ab : bper -> nat -> R) : R :=
  total nl (mover_posterior nl nk p) (mover_fit p A Ab) data + dridge (d_X_diag c) nl nk ts A Ab.
Definition A_feasible (A : aper -> mat) (Ab : bper -> nat -> R) : Prop :=
  dallowed nl nk ts (dcons_a c ++ dcons_a_all c) A Ab /\
  b_absent nk (endogeneity c) (state_dependence c) Ab.
Definition A_optimal (p : dpar) (A : aper -> mat) (Ab : bper -> nat -> R) : Prop :=
  A_feasible A Ab /\ forall B Bb, A_feasible B Bb -> A_loss p A Ab <= A_loss p B Bb.

(* Variances V: bounded below, they satisfy the user's constraints, and no others
   fit the squared residuals of the effects A better. *)
Definition V_loss (p : dpar) (A : aper -> mat) (Ab : bper -> nat -> R)
    (V : aper -> mat) (Vb : bper -> nat -> R) : R :=
  total nl (mover_posterior nl nk p) (mover_var_fit p A Ab V Vb) data
  + dridge (d_X_diag c) nl nk ts V Vb.
Definition V_feasible (V : aper -> mat) (Vb : bper -> nat -> R) : Prop :=
  (forall t l k, In t ts -> (l < nl)%nat -> (k < nk)%nat ->
     ds_lower_bound c <= period_value V Vb t l k) /\
  dallowed nl nk ts (dcons_s c ++ dcons_s_all c) V Vb /\
  b_absent nk (endogeneity c) (state_dependence c) Vb.
Definition V_optimal (p : dpar) (A : aper -> mat) (Ab : bper -> nat -> R)
    (V : aper -> mat) (Vb : bper -> nat -> R) : Prop :=
  V_feasible V Vb /\ forall W Wb, V_feasible W Wb -> V_loss p A Ab V Vb <= V_loss p A Ab W Wb.

(* What the updates of the estimator use instead: the variance of the wage of
   period 2 enters those of the other wages with -rho in place of rho^2. *)
Definition mover_var_fit' (p : dpar) (A : aper -> mat) (Ab : bper -> nat -> R) (V : aper -> mat)
    (Vb : bper -> nat -> R) (o : dobs) (l : nat) : R :=
  let v2 := V T2ma l (dg1 o) + Vb T2mb (dg4 o) in
  sqdev ((dy1 o - mean1 p A o l) ^ 2) (V T12 l (dg1 o) - R12 p * V T2ma l (dg1 o))
    (dvar1 p (sq (dS p)) o l)
  + sqdev ((dy2 o - mean2 A Ab o l) ^ 2) v2 (dvar2 (sq (dS p)) (sqb (dSb p)) o l)
  + sqdev ((dy3 o - mean3 p A Ab o l) ^ 2)
      (V T3ma l (dg4 o) + Vb T3mb (dg1 o) - R32m p * v2) (dvar3 p (sq (dS p)) (sqb (dSb p)) o l)
  + sqdev ((dy4 o - mean4 p A o l) ^ 2) (V T43 l (dg4 o) - R43 p * V T3ma l (dg4 o))
      (dvar4 p (sq (dS p)) o l).
Definition V_loss' (p : dpar) (A : aper -> mat) (Ab : bper -> nat -> R)
    (V : aper -> mat) (Vb : bper -> nat -> R) : R :=
  total nl (mover_posterior nl nk p) (mover_var_fit' p A Ab V Vb) data
  + dridge (d_X_diag c) nl nk ts V Vb.
Definition V_optimal' (p : dpar) (A : aper -> mat) (Ab : bper -> nat -> R)
    (V : aper -> mat) (Vb : bper -> nat -> R) : Prop :=
  V_feasible V Vb /\ forall W Wb, V_feasible W Wb -> V_loss' p A Ab V Vb <= V_loss' p A Ab W Wb.

Definition rho_turn (iter : nat) : bool :=
  ((up_rho12 c || up_rho43 c || up_rho32m c) && (iter mod 2 =? 1)%nat)%bool.
(* rho is 0 or -1 *)
Definition plain (r : R) : Prop := r = 0 \/ r = -1.

(* An iteration takes p to p'.  Proportions are updated every time, the rhos in
   odd iterations (if any is updated at all), effects and standard deviations in
   the others.  A solver that gives up leaves the effects (or standard
   deviations) as they are. *)
Record mover_step (iter : nat) (p p' : dpar) : Prop := {
  ms_pk1 : if up_pk1 c
           then forall k1 k2 l, (k1 < nk)%nat -> (k2 < nk)%nat -> (l < nl)%nat ->
                  dpk1 p' (k1 + nk * k2)%nat l = pair_count p k1 k2 l / sumn nl (pair_count p k1 k2)
           else dpk1 p' = dpk1 p;
  ms_rho12 : if (rho_turn iter && up_rho12 c)%bool
             then regressor12 p -> least (rho12_loss p) (R12 p') else R12 p' = R12 p;
  ms_rho43 : if (rho_turn iter && up_rho43 c)%bool
             then regressor43 p -> least (rho43_loss p) (R43 p') else R43 p' = R43 p;
  ms_rho32m : if (rho_turn iter && up_rho32m c)%bool
              then regressor32m p -> least (rho32m_loss p) (R32m p') else R32m p' = R32m p;
  ms_A : if (negb (rho_turn iter) && up_a c)%bool
         then (dA p' = dA p /\ dAb p' = dAb p \/ A_optimal p (dA p') (dAb p')) /\
              (dcomplete solver -> (exists A Ab, A_optimal p A Ab) -> A_optimal p (dA p') (dAb p'))
         else dA p' = dA p /\ dAb p' = dAb p;
  ms_V : if (negb (rho_turn iter) && up_s c)%bool
         then (dS p' = dS p /\ dSb p' = dSb p \/
               V_optimal' p (dA p') (dAb p') (sq (dS p')) (sqb (dSb p'))) /\
              (dcomplete solver -> (exists V Vb, V_optimal' p (dA p') (dAb p') V Vb) ->
               V_optimal' p (dA p') (dAb p') (sq (dS p')) (sqb (dSb p')))
         else dS p' = dS p /\ dSb p' = dSb p;
  ms_stayers : dA p' T2s = dA p T2s /\ dA p' T3s = dA p T3s /\ dS p' T2s = dS p T2s /\
    dS p' T3s = dS p T3s /\ dpk0 p' = dpk0 p /\ R32s p' = R32s p;
  ms_counts : dNNm p' = dNNm p /\ dNNs p' = dNNs p
}.

(* The likelihood reported in an iteration: the mean log-likelihood, from the
   second iteration on with the prior's term. *)
Definition reported (iter : nat) (p : dpar) : R :=
  dmovers_loglik nl nk p data
  + (if ((0 <? iter)%nat && up_pk1 c)%bool
     then (dd_prior c - 1) * sumn (nk * nk) (fun k => sumn nl (fun l => ln (dpk1 p k l))) else 0).

(* At most n iterations from p, the first of which has number iter; prev is the
   likelihood reported before.  It stops early only when two successive
   likelihoods are closer than the threshold. *)
Inductive mover_path : nat -> nat -> option R -> dpar -> list R -> dpar -> Prop :=
| mp_end : forall iter prev p, mover_path 0 iter prev p [] p
| mp_converged : forall n iter l0 p,
    Rabs (reported iter p - l0) < dthreshold c ->
    mover_path (S n) iter (Some l0) p [reported iter p] p
| mp_step : forall n iter prev p p' liks p'',
    mover_step iter p p' ->
    mover_path n (S iter) (Some (reported iter p)) p' liks p'' ->
    mover_path (S n) iter prev p (reported iter p :: liks) p''.
End Movers.

(* ---- stayers ---- *)
Section Stayers.
Variable solver : nat -> mat -> list R -> problem -> qpres.
Variables (nl nk : nat) (c : dsettings) (data : list dobs).
Let ts := periods_update_stayers.
Let none : bper -> nat -> R := fun _ _ => 0.

Definition firm_count (p : dpar) (k l : nat) : R :=
  rsum (map (fun o => stayer_posterior nl p o l + dd_prior_stayers c - 1)
          (filter (fun o => (dg1 o =? k)%nat) data)).
Definition rho32s_loss (p : dpar) (r : R) : R :=
  total nl (stayer_posterior nl p) (fun o l =>
    (dy3 o - dA p T3s l (dg1 o) - r * (dy2 o - dA p T2s l (dg1 o))) ^ 2
    / svar3 p (sq (dS p)) o l) data.
Definition regressor32s (p : dpar) : Prop :=
  exists o l, In o data /\ (l < nl)%nat /\ dy2 o <> dA p T2s l (dg1 o).
Definition As_loss (p : dpar) (A : aper -> mat) : R :=
  total nl (stayer_posterior nl p) (stayer_fit p A) data
  + dridge (d_X_diag_stayers c) nl nk ts A none.
Definition As_optimal (p : dpar) (A : aper -> mat) : Prop :=
  dallowed nl nk ts (dcons_a c ++ dcons_a_all c) A none /\
  forall B, dallowed nl nk ts (dcons_a c ++ dcons_a_all c) B none -> As_loss p A <= As_loss p B.
Definition Vs_loss (p : dpar) (A V : aper -> mat) : R :=
  total nl (stayer_posterior nl p) (stayer_var_fit p A V) data
  + dridge (d_X_diag_stayers c) nl nk ts V none.
Definition Vs_feasible (V : aper -> mat) : Prop :=
  (forall l k, (l < nl)%nat -> (k < nk)%nat ->
     ds_lower_bound c <= V T2s l k /\ ds_lower_bound c <= V T3s l k) /\
  dallowed nl nk ts (dcons_s c ++ dcons_s_all c) V none.
Definition Vs_optimal (p : dpar) (A V : aper -> mat) : Prop :=
  Vs_feasible V /\ forall W, Vs_feasible W -> Vs_loss p A V <= Vs_loss p A W.

Definition stayer_var_fit' (p : dpar) (A V : aper -> mat) (o : dobs) (l : nat) : R :=
  sqdev ((dy2 o - A T2s l (dg1 o)) ^ 2) (V T2s l (dg1 o)) (dS p T2s l (dg1 o) ^ 2)
  + sqdev ((dy3 o - smean3 p A o l) ^ 2) (V T3s l (dg1 o) - R32s p * V T2s l (dg1 o))
      (svar3 p (sq (dS p)) o l).
Definition Vs_loss' (p : dpar) (A V : aper -> mat) : R :=
  total nl (stayer_posterior nl p) (stayer_var_fit' p A V) data
  + dridge (d_X_diag_stayers c) nl nk ts V none.
Definition Vs_optimal' (p : dpar) (A V : aper -> mat) : Prop :=
  Vs_feasible V /\ forall W, Vs_feasible W -> Vs_loss' p A V <= Vs_loss' p A W.

Definition rho_turn_s (iter : nat) : bool := (up_rho32s c && (iter mod 2 =? 1)%nat)%bool.
Record stayer_step (iter : nat) (p p' : dpar) : Prop := {
  ss_pk0 : if up_pk0 c
           then forall k l, (k < nk)%nat -> (l < nl)%nat ->
                  dpk0 p' k l = firm_count p k l / sumn nl (firm_count p k)
           else dpk0 p' = dpk0 p;
  ss_rho32s : if rho_turn_s iter
              then regressor32s p -> least (rho32s_loss p) (R32s p') else R32s p' = R32s p;
  ss_A : if (negb (rho_turn_s iter) && up_a_stayers c)%bool
         then (dA p' = dA p \/ As_optimal p (dA p')) /\
              (dcomplete solver -> (exists A, As_optimal p A) -> As_optimal p (dA p'))
         else dA p' = dA p;
  ss_V : if (negb (rho_turn_s iter) && up_s_stayers c)%bool
         then (dS p' = dS p \/ Vs_optimal' p (dA p') (sq (dS p'))) /\
              (dcomplete solver -> (exists V, Vs_optimal' p (dA p') V) ->
               Vs_optimal' p (dA p') (sq (dS p')))
         else dS p' = dS p;
  ss_movers : (forall t, t <> T2s -> t <> T3s -> dA p' t = dA p t /\ dS p' t = dS p t) /\
    dAb p' = dAb p /\ dSb p' = dSb p /\ dpk1 p' = dpk1 p /\
    R12 p' = R12 p /\ R43 p' = R43 p /\ R32m p' = R32m p;
  ss_counts : dNNm p' = dNNm p /\ dNNs p' = dNNs p
}.
Definition reported_s (iter : nat) (p : dpar) : R :=
  dstayers_loglik nl p data
  + (if ((0 <? iter)%nat && up_pk0 c)%bool
     then (dd_prior_stayers c - 1) * sumn nk (fun k => sumn nl (fun l => ln (dpk0 p k l))) else 0).
Inductive stayer_path : nat -> nat -> option R -> dpar -> list R -> dpar -> Prop :=
| sp_end : forall iter prev p, stayer_path 0 iter prev p [] p
| sp_converged : forall n iter l0 p,
    Rabs (reported_s iter p - l0) < dthreshold c ->
    stayer_path (S n) iter (Some l0) p [reported_s iter p] p
| sp_step : forall n iter prev p p' liks p'',
    stayer_step iter p p' ->
    stayer_path n (S iter) (Some (reported_s iter p)) p' liks p'' ->
    stayer_path (S n) iter prev p (reported_s iter p :: liks) p''.
End Stayers.

(* Data and parameters of a fit: all pairs of firm types are observed (for the
   stayers: all firm types), and the parameters give a likelihood. *)
Definition dall_pairs (nk : nat) (data : list dobs) : Prop :=
  forall k1 k2, (k1 < nk)%nat -> (k2 < nk)%nat -> exists o, In o data /\ dg1 o = k1 /\ dg4 o = k2.
Definition dall_firms (nk : nat) (data : list dobs) : Prop :=
  forall k, (k < nk)%nat -> exists o, In o data /\ dg1 o = k.

(* The user's constraints are for nt periods, nl worker types and nk firm types. *)
Definition dcons_valid (nt nl nk : nat) (c : dsettings) : Prop :=
  forall o, In o (dcons_a c ++ dcons_a_all c ++ dcons_s c ++ dcons_s_all c) -> valid nt nl nk o.
Definition nt_movers (c : dsettings) : nat :=
  length (periods_movers (endogeneity c) (state_dependence c)).
(* All wages of all movers have the same variance v. *)
Definition equal_variances (nl : nat) (data : list dobs) (v : R) (p : dpar) : Prop :=
  forall o l, In o data -> (l < nl)%nat ->
    dvar1 p (sq (dS p)) o l = v /\ dvar2 (sq (dS p)) (sqb (dSb p)) o l = v /\
    dvar3 p (sq (dS p)) (sqb (dSb p)) o l = v /\ dvar4 p (sq (dS p)) o l = v.
