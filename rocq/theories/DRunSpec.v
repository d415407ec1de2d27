(* What the properties about running the dynamic BLM estimation speak about. *)
From Verif Require Import Base BLMModel ConsModel BLMFitModel DBLMModel DBLMSpec DBLMEMSpec DRunModel.
Local Open Scope R_scope.

(* Starting values: standard deviations and proportions are positive. *)
Definition draws_ok (nl nk : nat) (d : draws) : Prop :=
  (forall t l k, (l < nl)%nat -> (k < nk)%nat -> 0 < r_S d t l k) /\
  (forall k1 k2 l, (k1 < nk)%nat -> (k2 < nk)%nat -> (l < nl)%nat -> 0 < r_pk1 d (k1 + nk * k2)%nat l).
Definition static_ok (nl nk : nat) (b : static) : Prop :=
  (forall k1 k2 l, (k1 < nk)%nat -> (k2 < nk)%nat -> (l < nl)%nat -> 0 < s_pk1 b (k1 + nk * k2)%nat l) /\
  (forall k l, (k < nk)%nat -> (l < nl)%nat -> 0 < s_pk0 b k l).
(* The data has the firm types 0, ..., nk - 1. *)
Definition firm_types (nk : nat) (data : list dobs) : Prop :=
  forall o, In o data -> (dg1 o < nk)%nat /\ (dg4 o < nk)%nat.
(* Estimates with a likelihood: positive standard deviations and proportions, and no 'b'
   effects that are not estimated. *)
Definition dpar_ok (nl nk : nat) (c : dsettings) (p : dpar) : Prop :=
  (forall t l k, (l < nl)%nat -> (k < nk)%nat -> 0 < dS p t l k) /\
  (forall k1 k2 l, (k1 < nk)%nat -> (k2 < nk)%nat -> (l < nl)%nat -> 0 < dpk1 p (k1 + nk * k2)%nat l) /\
  (forall k l, (k < nk)%nat -> (l < nl)%nat -> 0 < dpk0 p k l) /\
  b_absent nk (endogeneity c) (state_dependence c) (dAb p) /\
  b_absent nk (endogeneity c) (state_dependence c) (dSb p).

(* The user's parameters but for the three switches, the constraints cons_a_all and the
   ridge. *)
Definition phase (a s k : bool) (cons : list cobj) (d : R) (c : dsettings) : dsettings :=
  mkdset (endogeneity c) (state_dependence c) (up_rho12 c) (up_rho43 c) (up_rho32m c) (up_rho32s c)
    a s k (up_a_stayers c) (up_s_stayers c) (up_pk0 c) (dn_iters c) (dn_iters_stayers c)
    (dthreshold c) (dd_prior c) (dd_prior_stayers c) d (d_X_diag_stayers c)
    (ds_lower_bound c) (dcons_a c) cons (dcons_s c) (dcons_s_all c).

(* The constrained phases: A fixed (with a static model the proportions too), then A
   linear and additive, then with stationary variation over firm types; the last two with
   several worker types only, and in addition to the user's constraints. *)
Definition constrained_phases (nl : nat) (with_static : bool) (c : dsettings) : list dsettings :=
  let d := d_X_diag c in
  phase false true (negb with_static) (dcons_a_all c) d c ::
  (if (1 <? nl)%nat
   then [phase true true true (dcons_a_all c ++ [CLinearAdditive None (nt_movers c)]) d c;
         phase true true true
           (dcons_a_all c ++ [CStationaryFirmTypeVariation (Some [1; 2; 3]%nat) (nt_movers c)]) d c]
   else []).
(* The last phase: the user's constraints, everything updated. *)
Definition last_phase (c : dsettings) : dsettings :=
  phase true true true (dcons_a_all c) ((1 + d_X_diag c) / 2) c.

(* Fits one after the other, each from the estimates of the one before. *)
Inductive fits_in_turn (fit : dsettings -> dpar -> res (dpar * option R * list R))
  : list dsettings -> dpar -> dpar -> Prop :=
| fit_none : forall p, fits_in_turn fit [] p p
| fit_next : forall c cs p q lik liks r,
    fit c p = Ok (q, lik, liks) -> fits_in_turn fit cs q r -> fits_in_turn fit (c :: cs) p r.

(* The estimates a fit starts from: p, or those of a static model (effects of the outer
   periods and proportions; with all, those of the inner periods too, and neither 'b'
   effects nor persistence). *)
Definition first_estimates (blm : option static) (all : bool) (p p0 : dpar) : Prop :=
  match blm with
  | None => p0 = p
  | Some b =>
      dA p0 T12 = s_A1 b /\ dA p0 T43 = s_A2 b /\ dpk1 p0 = s_pk1 b /\ dpk0 p0 = s_pk0 b /\
      dS p0 = dS p /\ dSb p0 = dSb p /\
      if all
      then dA p0 T2ma = s_A1 b /\ dA p0 T3ma = s_A2 b /\ dA p0 T2s = s_A1 b /\ dA p0 T3s = s_A2 b /\
           (forall t k, dAb p0 t k = 0) /\ R12 p0 = 0 /\ R43 p0 = 0 /\ R32m p0 = 0 /\ R32s p0 = 0
      else (forall t, t <> T12 -> t <> T43 -> dA p0 t = dA p t) /\ dAb p0 = dAb p /\
           R12 p0 = R12 p /\ R43 p0 = R43 p /\ R32m p0 = R32m p /\ R32s p0 = R32s p
  end.

(* The estimates for movers are the same. *)
Definition same_movers (p q : dpar) : Prop :=
  (forall t, t <> T2s -> t <> T3s -> dA q t = dA p t /\ dS q t = dS p t) /\
  dAb q = dAb p /\ dSb q = dSb p /\ dpk1 q = dpk1 p /\ dNNm q = dNNm p /\
  R12 q = R12 p /\ R43 q = R43 p /\ R32m q = R32m p.

(* A starting value: number i of the drawn ones; the even ones start from the static
   model, the first one entirely. *)
Definition run_one (fit : option static -> bool -> dmodel -> res dmodel) (new : draws -> dmodel)
    (blm : option static) (i : nat) (d : draws) : res dmodel :=
  fit (if Nat.even i then blm else None) (Nat.even i && (i =? 0)%nat)%bool (new d).

(* m has likelihood and connectedness. *)
Definition has_measures (lik conn : R) (m : dmodel) : Prop := m_lik m = Some lik /\ m_conn m = Some conn.
