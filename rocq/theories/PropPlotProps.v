(* Property C122: pytwoway/blm.py, the plot of type proportions over bootstrap models. *)
From Verif Require Import Base UtilModel UtilSpec BLMModel BLMSpec BLMRealModel BLMRunSpec BLMRealLemmas BLMPropLemmas BLMRunPropLemmas
  PlotSpec PropPlotModel PropPlotSpec PropPlotLemmas PropPlotCases.
Local Open Scope R_scope.

(* For each firm type the rectangles of the worker types are stacked from 0 to 1, for every
   subset and period.  (Every firm type is left and joined by movers in every model.) *)
Theorem C122_stacked argsort pp nl nk sub per models :
  (forall l, is_argsort l (argsort l)) -> per <> ROther -> models <> [] ->
  (forall m, In m models -> counts_ok nk (NNm m) (NNs m) /\ props_ok nl nk (pk1 m) (pk0 m)) ->
  exists rows, plot_type_proportions argsort pp nl nk sub per models = Ok rows /\ stacked_to_one nl nk rows.
Proof. exact (fun Ha Hp => stack_lemma argsort Ha pp nl nk sub per Hp models). Qed.
Print Assumptions C122_stacked.

(* Stayers: the mean over the models of the shares of the types with the same ranks. *)
Theorem C122_stayers argsort pp nl nk per models :
  (forall l, is_argsort l (argsort l)) -> models <> [] -> per <> ROther ->
  exists rows, plot_type_proportions argsort pp nl nk SStayers per models = Ok rows /\
    shows_shares pp nl nk stayer_share models rows.
Proof. exact (fun Ha Hm => stayers_shown argsort Ha pp nl nk models Hm per). Qed.
Print Assumptions C122_stayers.

(* Movers, average of both periods, if as many move from each type a to b as from b to a.
   Missing: other counts and single periods, see C43 and below. *)
Theorem C122_movers_partial argsort pp nl nk models :
  (forall l, is_argsort l (argsort l)) -> models <> [] -> (forall m, In m models -> symmetric nk (NNm m)) ->
  exists rows, plot_type_proportions argsort pp nl nk SMovers RAll models = Ok rows /\
    shows_shares pp nl nk (fun m k l => (leaving_share nk m k l + arriving_share nk m k l) / 2) models rows.
Proof. exact (fun Ha Hm => both_shown argsort Ha pp nl nk models Hm). Qed.
Print Assumptions C122_movers_partial.

(* Even then the plot of the first period shows the workers arriving in the second, and the
   plot of the second those leaving in the first. *)
Theorem C122_periods_refuted argsort pp nl nk models :
  (forall l, is_argsort l (argsort l)) -> models <> [] -> (forall m, In m models -> symmetric nk (NNm m)) ->
  (exists rows, plot_type_proportions argsort pp nl nk SMovers RFirst models = Ok rows /\
     shows_shares pp nl nk (arriving_share nk) models rows) /\
  (exists rows, plot_type_proportions argsort pp nl nk SMovers RSecond models = Ok rows /\
     shows_shares pp nl nk (leaving_share nk) models rows).
Proof. exact (fun Ha Hm => exchanged argsort Ha pp nl nk models Hm). Qed.
Print Assumptions C122_periods_refuted.

(* The same for movers and stayers together. *)
Theorem C122_all_partial argsort pp nl nk models :
  (forall l, is_argsort l (argsort l)) -> models <> [] -> (forall m, In m models -> symmetric nk (NNm m)) ->
  (forall m, In m models -> counts_ok nk (NNm m) (NNs m)) ->
  exists rows, plot_type_proportions argsort pp nl nk SAll RAll models = Ok rows /\
    shows_shares pp nl nk (fun m k l => (first_share nk m k l + second_share nk m k l) / 2) models rows.
Proof. exact (fun Ha Hm => all_shown argsort Ha pp nl nk models Hm). Qed.
Print Assumptions C122_all_partial.

Theorem C122_all_periods_refuted argsort pp nl nk models :
  (forall l, is_argsort l (argsort l)) -> models <> [] -> (forall m, In m models -> symmetric nk (NNm m)) ->
  (forall m, In m models -> counts_ok nk (NNm m) (NNs m)) ->
  (exists rows, plot_type_proportions argsort pp nl nk SAll RFirst models = Ok rows /\
     shows_shares pp nl nk (second_share nk) models rows) /\
  (exists rows, plot_type_proportions argsort pp nl nk SAll RSecond models = Ok rows /\
     shows_shares pp nl nk (first_share nk) models rows).
Proof. exact (fun Ha Hm => all_exchanged argsort Ha pp nl nk models Hm). Qed.
Print Assumptions C122_all_periods_refuted.

(* The names of the types in each model do not matter, if no two types tie. *)
Theorem C122_labels argsort pp nl nk sub per models models' :
  (forall l, is_argsort l (argsort l)) -> per <> ROther ->
  Forall (distinct_types pp nl nk) (map effs models) -> Forall2 (same_model nl nk) models models' ->
  plot_type_proportions argsort pp nl nk sub per models' = plot_type_proportions argsort pp nl nk sub per models.
Proof. exact (fun Ha Hp => plabels_lemma argsort Ha pp nl nk sub per Hp models models'). Qed.
Print Assumptions C122_labels.

(* Two worker and two firm types; in the first firm type 1/8 of those arriving and 7/8 of those
   leaving are of the first worker type. *)
Example C122_case :
  counts_ok 2 (NNm pp_par) (NNs pp_par) /\ props_ok 2 2 (pk1 pp_par) (pk0 pp_par) /\ symmetric 2 (NNm pp_par) /\
  distinct_types PFirst 2 2 (effs pp_par) /\
  same_model 2 2 pp_par (sort_parameters isort PFirst 2 2 true false pp_par) /\
  arriving_share 2 pp_par 0 0 = 1 / 8 /\ leaving_share 2 pp_par 0 0 = 7 / 8.
Proof. exact (conj sy_counts (conj cx_props (conj sy_sym (conj pp_distinct (conj pp_renamed pp_shares))))). Qed.
