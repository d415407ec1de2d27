(* Properties C118 and C119: plots of the bootstrap and of the estimator of the static
   and the dynamic BLM model. *)
From Verif Require Import Base BaseLemmas UtilModel UtilSpec BLMModel BLMSpec BLMSortLemmas BLMPropLemmas
  DBLMModel BLMRealModel BLMRunModel PlotModel PlotSpec PlotLemmas PlotPropLemmas PlotLikLemmas.
From Coq Require Import Permutation.
Local Open Scope R_scope.

(* ================================================================== C118 *)
(* Whatever plot_log_earnings draws for the bootstrap models: each point is the mean over
   the models of the effects of the pair of types with the same ranks in each model,
   and its bar runs from the 2.5 to the 97.5 percentile of these effects. *)
Theorem C118_shown argsort pp nl nk per models lines :
  (forall l, is_argsort l (argsort l)) -> plot_log_earnings argsort pp nl nk per models = Ok lines ->
  per <> ROther /\ shows pp nl nk per (map effs models) lines.
Proof. exact (fun Ha => shown_lemma argsort Ha pp nl nk per models lines). Qed.
Print Assumptions C118_shown.

Theorem C118_shown_dynamic argsort pp nl nk per models lines :
  (forall l, is_argsort l (argsort l)) -> dplot_log_earnings argsort pp nl nk per models = Ok lines ->
  per <> ROther /\ shows pp nl nk per (map deffs models) lines.
Proof. exact (fun Ha => dshown_lemma argsort Ha pp nl nk per models lines). Qed.
Print Assumptions C118_shown_dynamic.

(* With up to forty bootstrap samples the plot is drawn, whatever the estimates. *)
Theorem C118_drawn_partial argsort pp nl nk per models dmodels :
  (forall l, is_argsort l (argsort l)) -> per <> ROther ->
  (0 < length models <= 40)%nat -> (0 < length dmodels <= 40)%nat ->
  (exists lines, plot_log_earnings argsort pp nl nk per models = Ok lines) /\
  (exists lines, dplot_log_earnings argsort pp nl nk per dmodels = Ok lines).
Proof. exact (fun _ => served_lemma argsort pp nl nk per models dmodels). Qed.
Print Assumptions C118_drawn_partial.

(* With any larger number it need not be: one outlier moves the mean above the 97.5
   percentile, the bar has a negative length, and ValueError is raised. *)
Theorem C118_drawn_refuted n : (41 <= n)%nat ->
  exists models dmodels, length models = n /\ length dmodels = n /\
  forall argsort pp nl nk per, (forall l, is_argsort l (argsort l)) -> (0 < nl)%nat -> (0 < nk)%nat -> per <> ROther ->
    plot_log_earnings argsort pp nl nk per models = Err ValueError /\
    dplot_log_earnings argsort pp nl nk per dmodels = Err ValueError.
Proof. exact (many_refuted n). Qed.
Print Assumptions C118_drawn_refuted.

(* The names the types happen to have in each bootstrap model do not matter, if no two
   types of a model have the same mean effect. *)
Theorem C118_labels argsort pp nl nk per models models' :
  (forall l, is_argsort l (argsort l)) -> Forall (distinct_types pp nl nk) (map effs models) ->
  Forall2 (renamed nl nk) (map effs models) (map effs models') ->
  plot_log_earnings argsort pp nl nk per models' = plot_log_earnings argsort pp nl nk per models.
Proof. exact (fun Ha => labels_lemma argsort Ha pp nl nk per models models'). Qed.
Print Assumptions C118_labels.

Theorem C118_labels_dynamic argsort pp nl nk per models models' :
  (forall l, is_argsort l (argsort l)) -> Forall (distinct_types pp nl nk) (map deffs models) ->
  Forall2 (renamed nl nk) (map deffs models) (map deffs models') ->
  dplot_log_earnings argsort pp nl nk per models' = dplot_log_earnings argsort pp nl nk per models.
Proof. exact (fun Ha => dlabels_lemma argsort Ha pp nl nk per models models'). Qed.
Print Assumptions C118_labels_dynamic.

(* Two worker and two firm types with effects 5, 4, 2, 1, once in this order and once with
   the types in ascending order. *)
Example C118_case : let other := sort_parameters isort PFirst 2 2 true false ex_par in
  distinct_types PFirst 2 2 (effs ex_par) /\ renamed 2 2 (effs ex_par) (effs other) /\
  plot_log_earnings isort PFirst 2 2 RAll [ex_par; other] = plot_log_earnings isort PFirst 2 2 RAll [ex_par; ex_par] /\
  exists lines, plot_log_earnings isort PFirst 2 2 RAll [ex_par; other] = Ok lines.
Proof.
  intros other.
  assert (D : distinct_types PFirst 2 2 (effs ex_par)).
  { split; intros [|[|a]] [|[|b]] H1 H2; try lia; try reflexivity; cbv -[Rplus Rmult Rinv Rle R1 IZR]; cbn; intros; exfalso; lra. }
  assert (Rn : renamed 2 2 (effs ex_par) (effs other)).
  { destruct (sort_sorts isort PFirst 2 2 ex_par isort_ok) as (s & t & (Rs & Rt & _) & H). now exists s, t. }
  split; [exact D|]. split; [exact Rn|]. split.
  - apply (C118_labels isort PFirst 2 2 RAll [ex_par; ex_par] [ex_par; other] isort_ok).
    + constructor; [exact D|]. constructor; [exact D|constructor].
    + constructor; [|constructor; [exact Rn|constructor]]. exists (fun i => i), (fun i => i).
      split; [apply id_relabelling|]. split; [apply id_relabelling|]. now split.
  - apply (C118_drawn_partial isort PFirst 2 2 RAll [ex_par; other] [const_dpar 0] isort_ok); [discriminate| |]; cbn; lia.
Qed.

(* ================================================================== C119 *)
(* If every model has a connectedness measure: the plot after a fit shows each estimated model
   once, the one kept as the star; the others of the n_best with the highest likelihoods as
   triangles. *)
Theorem C119_points (M : Type) (lik1 : M -> R) liks1 connectedness (models : list M) n_best :
  (0 < n_best <= length models)%nat -> (forall m, In m models -> connectedness m <> None) ->
  exists f sc, select lik1 liks1 connectedness models n_best = Ok f /\
    plot_liks_connectedness lik1 connectedness f = Ok sc /\
    In (f_model f) models /\ sc_best sc = point lik1 connectedness (f_model f) /\
    Permutation (sc_best sc :: sc_high sc ++ sc_low sc) (map (point lik1 connectedness) models) /\
    S (length (sc_high sc)) = n_best /\
    forall a b, In a (sc_best sc :: sc_high sc) -> In b (sc_low sc) -> fst b <= fst a.
Proof. exact (plot_liks_all lik1 liks1 connectedness models n_best). Qed.
Print Assumptions C119_points.

(* Otherwise there is a point at likelihood 0 and connectedness 0, which belongs to no
   model, for every model without the measure. *)
Theorem C119_zeros_refuted (M : Type) (lik1 : M -> R) liks1 connectedness (models : list M) n_best :
  let cands := filter (fun m => match connectedness m with Some _ => true | None => false end) models in
  (0 < n_best <= length models)%nat -> cands <> [] ->
  exists f sc, select lik1 liks1 connectedness models n_best = Ok f /\
    plot_liks_connectedness lik1 connectedness f = Ok sc /\
    Permutation (sc_best sc :: sc_high sc ++ sc_low sc)
      (map (point lik1 connectedness) cands ++ repeat (0, 0) (length models - length cands)).
Proof. exact (plot_liks_padding lik1 liks1 connectedness models n_best). Qed.
Print Assumptions C119_zeros_refuted.

(* Three models given by likelihood and connectedness, and a fourth without the latter. *)
Definition case_models : list (R * option R) := [(-3, Some 2); (-1, Some 1); (-2, Some 2)].
Example C119_case :
  (exists f sc, select fst (fun m => [fst m]) snd case_models 2 = Ok f /\
    plot_liks_connectedness fst snd f = Ok sc /\
    Permutation (sc_best sc :: sc_high sc ++ sc_low sc) [(-3, 2); (-1, 1); (-2, 2)]) /\
  (exists f sc, select fst (fun m => [fst m]) snd (case_models ++ [(-1, None)]) 2 = Ok f /\
    plot_liks_connectedness fst snd f = Ok sc /\
    Permutation (sc_best sc :: sc_high sc ++ sc_low sc) [(-3, 2); (-1, 1); (-2, 2); (0, 0)]).
Proof.
  split.
  - destruct (C119_points _ fst (fun m => [fst m]) snd case_models 2) as (f & sc & E1 & E2 & _ & _ & P & _).
    + cbn. lia.
    + intros m [<-|[<-|[<-|[]]]]; discriminate.
    + exists f, sc. now repeat split.
  - destruct (C119_zeros_refuted _ fst (fun m => [fst m]) snd (case_models ++ [(-1, None)]) 2) as (f & sc & E1 & E2 & P).
    + cbn. lia.
    + discriminate.
    + exists f, sc. now repeat split.
Qed.
