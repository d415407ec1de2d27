(* Property C87: the counts of movers and stayers that the fits store. *)
From Verif Require Import Base UtilModel UtilSpec ConsModel ConsSpec BLMModel BLMEMModel BLMSpec
  BLMPropLemmas BLMFitModel DBLMModel DBLMSpec DBLMEMSpec DBLMPropLemmas DBLMCountLemmas.
Local Open Scope R_scope.

(* Row a, column b of NNm is the number of movers from firm type a to firm type b. *)
Theorem C87_count_movers argsort solver pp nl nk c data p p' lik ls :
  dfit_movers argsort solver pp nl nk c true data p = Ok (p', lik, ls) ->
  forall a b, dNNm p' a b = INR (count_occ pair_dec (map (fun o => (dg1 o, dg4 o)) data) (a, b)).
Proof. exact (fit_movers_counts argsort solver pp nl nk c data p p' lik ls). Qed.
Print Assumptions C87_count_movers.

(* Entry a of NNs is the number of stayers of firm type a. *)
Theorem C87_count_stayers argsort solver nl nk c data p p' lik ls :
  dfit_stayers argsort solver nl nk c true data p = Ok (p', lik, ls) ->
  forall a, dNNs p' a = INR (count_occ Nat.eq_dec (map dg1 data) a).
Proof. exact (fit_stayers_counts argsort solver nl nk c data p p' lik ls). Qed.
Print Assumptions C87_count_stayers.
(* C87_case and C87_case_stayers (DBLMProps) are fits with compute_NNm and compute_NNs. *)
