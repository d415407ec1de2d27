(* The example for the plot of type proportions. *)
From Verif Require Import Base UtilModel UtilSpec BLMModel BLMSpec BLMSortLemmas BLMRealModel BLMRunSpec BLMRunLemmas BLMRealLemmas BLMPropLemmas
  BLMRunPropLemmas PlotSpec PropPlotModel PropPlotSpec PropPlotLemmas.
Local Open Scope R_scope.

(* Two worker and two firm types in descending order, counts and proportions of C43. *)
Definition pp_par : par :=
  mkpar ex_A ex_A (fun _ _ => 1) (fun _ _ => 1) [] [] [] [] [] [] [] [] cx_pk1 cx_pk0 sy_NN cx_Ns.
Lemma pp_distinct : distinct_types PFirst 2 2 (effs pp_par).
Proof.
  split; intros [|[|a]] [|[|b]] H1 H2; try lia; try reflexivity;
    cbv -[Rplus Rmult Rinv Rle R1 IZR]; cbn; intros; exfalso; lra.
Qed.
Lemma pp_renamed : same_model 2 2 pp_par (sort_parameters isort PFirst 2 2 true false pp_par).
Proof.
  destruct (sort_ranks isort isort_ok PFirst 2 2 pp_par) as (s & t & (Rs & Rt & _) & H). now exists s, t.
Qed.
Lemma pp_shares : arriving_share 2 pp_par 0 0 = 1 / 8 /\ leaving_share 2 pp_par 0 0 = 7 / 8.
Proof. exact sy_value. Qed.
