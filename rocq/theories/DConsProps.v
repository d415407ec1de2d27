(* User constraints of the dynamic BLM model. *)
From Verif Require Import Base UtilModel UtilSpec ConsModel ConsSpec BLMModel BLMSpec BLMFitModel BLMPropLemmas
  DBLMModel DBLMEMSpec DBLMPropLemmas DConsSpec DConsPropLemmas.
From Coq Require Import Lia Lra.
Local Open Scope R_scope.

(* ================================================================== C98 *)
(* A constraint of the user on the effects should hold in the fit of the movers and
   in the fit of the stayers.  The movers have four to six periods and the stayers
   two, and the same objects, made for one number of periods nt, are passed to both.
   So whatever nt is, one of the two fits, if it returns, returns the effects it
   started from (for the movers: up to the names of the worker types). *)
Theorem C98_effects_refuted argsort solver pp nl nk c o nt cm cs md sd p1 q1 l1 ls1 p0 q0 l0 ls0 :
  (forall l, is_argsort l (argsort l)) -> checks_sizes solver -> (0 < nl)%nat -> (0 < nk)%nat ->
  In o (dcons_a c ++ dcons_a_all c) -> valid nt nl nk o -> restricts nl nk o ->
  dfit_movers argsort solver pp nl nk c cm md p1 = Ok (q1, l1, ls1) ->
  dfit_stayers argsort solver nl nk c cs sd p0 = Ok (q0, l0, ls0) ->
  nt <> 2%nat /\ dA q0 = dA p0 \/
  nt = 2%nat /\ exists s, relabelling nl s /\
    (forall a l k, (l < nl)%nat -> (k < nk)%nat -> dA q1 a l k = dA p1 a (s l) k) /\
    (forall b k, (k < nk)%nat -> dAb q1 b k = dAb p1 b k).
Proof. exact (effects_either argsort solver pp nl nk c o nt cm cs md sd p1 q1 l1 ls1 p0 q0 l0 ls0). Qed.
Print Assumptions C98_effects_refuted.
(* Effects that are not negative, for the six periods of the movers: both fits
   return, and that of the stayers returns the effects it was given. *)
Example C98_case : exists q1 l1 ls1 q0 l0 ls0,
  dfit_movers isort sized_solver PFirst 2 2 k_set true v_data v_par = Ok (q1, l1, ls1) /\
  dfit_stayers isort sized_solver 2 2 k_set true v_data v_par = Ok (q0, l0, ls0) /\ dA q0 = dA v_par /\
  nt_movers k_set = 6%nat /\ valid 6 2 2 (CBoundedBelow 0 6).
Proof. exact k_case. Qed.

(* The same for the standard deviations. *)
Theorem C98_spread_refuted argsort solver pp nl nk c o nt cm cs md sd p1 q1 l1 ls1 p0 q0 l0 ls0 :
  (forall l, is_argsort l (argsort l)) -> checks_sizes solver -> (0 < nl)%nat -> (0 < nk)%nat ->
  In o (dcons_s c ++ dcons_s_all c) -> valid nt nl nk o -> restricts nl nk o ->
  dfit_movers argsort solver pp nl nk c cm md p1 = Ok (q1, l1, ls1) ->
  dfit_stayers argsort solver nl nk c cs sd p0 = Ok (q0, l0, ls0) ->
  nt <> 2%nat /\ dS q0 = dS p0 \/
  nt = 2%nat /\ exists s, relabelling nl s /\
    (forall a l k, (l < nl)%nat -> (k < nk)%nat -> dS q1 a l k = dS p1 a (s l) k) /\
    (forall b k, (k < nk)%nat -> dSb q1 b k = dSb p1 b k).
Proof. exact (spread_either argsort solver pp nl nk c o nt cm cs md sd p1 q1 l1 ls1 p0 q0 l0 ls0). Qed.
Print Assumptions C98_spread_refuted.

(* With an inequality for the standard deviations one of the two fits does not even
   return: there is already the lower bound of all standard deviations, and the new
   rows have another number of columns. *)
Theorem C98_refuses_refuted argsort solver pp nl nk c o nt cm cs md sd p1 p0 :
  (0 < nl)%nat -> (0 < nk)%nat ->
  In o (dcons_s c ++ dcons_s_all c) -> valid nt nl nk o -> restricts_le nl nk o ->
  nt <> 2%nat /\ (forall r, dfit_stayers argsort solver nl nk c cs sd p0 <> Ok r) \/
  nt = 2%nat /\ (forall r, dfit_movers argsort solver pp nl nk c cm md p1 <> Ok r).
Proof. exact (refused_either argsort solver pp nl nk c o nt cm cs md sd p1 p0). Qed.
Print Assumptions C98_refuses_refuted.
Example C98_case_refuses : exists e,
  dfit_stayers isort sized_solver 2 2 ks_set true v_data v_par = Err e /\ restricts_le 2 2 (CBoundedAbove 3 4).
Proof. exact ks_case. Qed.
