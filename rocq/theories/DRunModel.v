(* Model of the phases of DynamicBLMModel and of DynamicBLMEstimator,
   pytwoway/blm_dynamic.py, without control variables and with return_qi = False. *)
From Verif Require Import Base BLMModel BLMRunModel ConsModel BLMFitModel DBLMModel ConnModel.
Local Open Scope res_scope.
Local Open Scope R_scope.

(* The drawn starting values, 1187-1213: effects, standard deviations and proportions. *)
Record draws : Type := mkdraws {
  r_A : aper -> mat; r_Ab : bper -> nat -> R; r_S : aper -> mat; r_Sb : bper -> nat -> R;
  r_pk1 : mat
}.

(* __init__, 1181-1186, 1187-1219 and 1261-1282: rho_1 and rho_4 come from rho_init; 'b'
   parameters that are not estimated are set to 0; NNm and NNs are None (here 0). *)
Definition new_par (nl : nat) (c : dsettings) (rho1 rho4 : R) (d : draws) : dpar :=
  let off (v : bper -> nat -> R) (b : bper) (k : nat) : R :=
    match b with
    | T2mb => if endogeneity c then v T2mb k else 0
    | T3mb => if state_dependence c then v T3mb k else 0
    end in
  mkdpar (r_A d) (off (r_Ab d)) (r_S d) (off (r_Sb d)) (r_pk1 d)
    (fun _ _ => 1 / INR nl) (fun _ _ => 0) (fun _ => 0) rho1 rho4 (6 / 10) (6 / 10).

(* A model object: the estimates; whether NNm has been computed (1281: None at first);
   lik1, liks1 and connectedness (1113-1121). *)
Record dmodel : Type := mkdmodel {
  m_par : dpar; m_counted : bool; m_lik : option R; m_liks : list R; m_conn : option R
}.
Definition new_model (nl : nat) (c : dsettings) (rho1 rho4 : R) (d : draws) : dmodel :=
  mkdmodel (new_par nl c rho1 rho4 d) false None [] None.

(* What is used of an estimated static model, 3707-3715. *)
Record static : Type := mkstatic { s_A1 : mat; s_A2 : mat; s_pk1 : mat; s_pk0 : mat }.

(* 3706-3721 *)
Definition initialize (all : bool) (b : static) (p : dpar) : dpar :=
  let A := fun t => match t with
                    | T12 => s_A1 b
                    | T43 => s_A2 b
                    | T2ma | T2s => if all then s_A1 b else dA p t
                    | T3ma | T3s => if all then s_A2 b else dA p t
                    end in
  let Ab := if all then fun _ _ => 0 else dAb p in
  let rho r := if all then 0 else r in
  mkdpar A Ab (dS p) (dSb p) (s_pk1 b) (s_pk0 b) (dNNm p) (dNNs p)
    (rho (R12 p)) (rho (R43 p)) (rho (R32m p)) (rho (R32s p)).

(* self.params['update_a_movers'], ['update_s_movers'] and ['update_pk1'] *)
Definition dset_up (a s k : bool) (c : dsettings) : dsettings :=
  mkdset (endogeneity c) (state_dependence c) (up_rho12 c) (up_rho43 c) (up_rho32m c) (up_rho32s c)
    a s k (up_a_stayers c) (up_s_stayers c) (up_pk0 c) (dn_iters c) (dn_iters_stayers c)
    (dthreshold c) (dd_prior c) (dd_prior_stayers c) (d_X_diag c) (d_X_diag_stayers c)
    (ds_lower_bound c) (dcons_a c) (dcons_a_all c) (dcons_s c) (dcons_s_all c).
(* self.params['cons_a_all'] *)
Definition dset_cons (cs : list cobj) (c : dsettings) : dsettings :=
  mkdset (endogeneity c) (state_dependence c) (up_rho12 c) (up_rho43 c) (up_rho32m c) (up_rho32s c)
    (up_a c) (up_s c) (up_pk1 c) (up_a_stayers c) (up_s_stayers c) (up_pk0 c) (dn_iters c)
    (dn_iters_stayers c) (dthreshold c) (dd_prior c) (dd_prior_stayers c) (d_X_diag c)
    (d_X_diag_stayers c) (ds_lower_bound c) (dcons_a c) cs (dcons_s c) (dcons_s_all c).
(* self.params['d_X_diag_movers'] *)
Definition dset_diag (d : R) (c : dsettings) : dsettings :=
  mkdset (endogeneity c) (state_dependence c) (up_rho12 c) (up_rho43 c) (up_rho32m c) (up_rho32s c)
    (up_a c) (up_s c) (up_pk1 c) (up_a_stayers c) (up_s_stayers c) (up_pk0 c) (dn_iters c)
    (dn_iters_stayers c) (dthreshold c) (dd_prior c) (dd_prior_stayers c) d
    (d_X_diag_stayers c) (ds_lower_bound c) (dcons_a c) (dcons_a_all c) (dcons_s c) (dcons_s_all c).

Section DRun.
Variable argsort : list R -> list nat.
Variable solver : nat -> mat -> list R -> problem -> qpres.
Variable eig : nat -> mat -> res (list R).
Variable pp : period.
Variables (nl nk : nat).
Variable force : bool. (* force_min_firm_type *)

(* fit_movers, 1856-1909.  With force_min_firm_type, DynamicBLMModel(params) lacks its
   argument rhos (1880, 1098): TypeError; without firm types best_model.A of None:
   AttributeError. *)
Definition fit_movers_m (c : dsettings) (compute_NNm : bool) (data : list dobs) (m : dmodel)
  : res dmodel :=
  if force
  then match nk with O => Err AttributeError | S _ => Err TypeError end
  else
    ' (p, lik, liks) <- dfit_movers argsort solver pp nl nk c compute_NNm data (m_par m) ;;
    Ok (mkdmodel p (compute_NNm || m_counted m) lik liks (m_conn m)).

(* compute_connectedness_measure, 3842-3870; NNm.T of None: AttributeError *)
Definition connect_m (m : dmodel) : res dmodel :=
  if m_counted m
  then s <- compute_connectedness eig false nl nk (dNNm (m_par m)) (dpk1 (m_par m)) ;;
       Ok (mkdmodel (m_par m) true (m_lik m) (m_liks m)
             (match s with SVal v => Some v | SVec _ => None end))
  else Err AttributeError.

(* fit_movers_cstr_uncstr, 3690-3777, for the parameters c.  Estimates in real numbers
   are never nan (3772).  The parameters are the user's again at the end (3777), so the
   model object is all there is to return; they are not after an exception. *)
Definition dcstr_uncstr (c : dsettings) (compute_NNm : bool) (blm : option static) (all : bool)
    (data : list dobs) (m : dmodel) : res dmodel :=
  let nt := length (periods_movers (endogeneity c) (state_dependence c)) in
  let user := dcons_a_all c in
  ' (c, m) <- match blm with
              | Some b =>
                  let m := mkdmodel (initialize all b (m_par m)) (m_counted m) (m_lik m)
                             (m_liks m) (m_conn m) in
                  let c := dset_up false true false c in
                  m <- fit_movers_m c false data m ;;
                  Ok (dset_up false true true c, m)
              | None =>
                  let c := dset_up false true true c in
                  m <- fit_movers_m c false data m ;; Ok (c, m)
              end ;;
  let c := dset_up true (up_s c) (up_pk1 c) c in
  ' (c, m) <- (if (1 <? nl)%nat
               then let c := dset_cons (user ++ [CLinearAdditive None nt]) c in
                    m <- fit_movers_m c false data m ;; Ok (c, m)
               else Ok (c, m)) ;;
  ' (c, m) <- (if (1 <? nl)%nat
               then let c := dset_cons (user ++ [CStationaryFirmTypeVariation (Some (range2 1 4)) nt]) c in
                    m <- fit_movers_m c false data m ;; Ok (c, m)
               else Ok (c, m)) ;;
  let c := dset_cons user c in
  let c := dset_diag (1 + (d_X_diag c - 1) / 2) c in
  m <- fit_movers_m c compute_NNm data m ;;
  connect_m m.

(* _fit_model, 3999-4017, for number i of the starting values *)
Definition fit_one (c : dsettings) (blm : option static) (jdata : list dobs) (rho1 rho4 : R)
    (i : nat) (d : draws) : res dmodel :=
  let m := new_model nl c rho1 rho4 d in
  if (i mod 2 =? 0)%nat
  then dcstr_uncstr c true blm (i =? 0)%nat jdata m
  else dcstr_uncstr c true None false jdata m.

(* fit, 4019-4087.  The likelihoods are None only for n_iters_movers = 0, which the
   parameter dictionary refuses; then sorting raises TypeError. *)
Definition destimate (c : dsettings) (blm : option static) (rho1 rho4 : R) (n_best : nat)
    (jdata sdata : list dobs) (starts : list draws)
  : res (fitted (M := dmodel) * (dpar * option R * list R)) :=
  models <- traverse (fun id => fit_one c blm jdata rho1 rho4 (fst id) (snd id)) (enumerate starts) ;;
  models <- traverse (fun m => match m_lik m with Some v => Ok (v, m) | None => Err TypeError end) models ;;
  f <- select fst (fun vm => m_liks (snd vm)) (fun vm => m_conn (snd vm)) models n_best ;;
  let f := mkfitted (snd (f_model f)) (f_liks_high f) (f_connectedness_high f) (f_liks_low f)
             (f_connectedness_low f) (f_liks_all f) in
  s <- dfit_stayers argsort solver nl nk c true sdata (m_par (f_model f)) ;;
  Ok (f, s).
End DRun.
