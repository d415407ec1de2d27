(* Property C123: pytwoway/blm.py and pytwoway/blm_dynamic.py, which calls make the counts of
   movers and stayers available, and what happens without them. *)
From Verif Require Import Base BLMRealModel AvailModel AvailSpec AvailLemmas.

(* After any calls on a model of either class, NNm and NNs are the counts of the last data fitted
   with the option to compute them, and None if there is none. *)
Theorem C123_counts data_m data_s counts_m counts_s
    (count_m : data_m -> counts_m) (count_s : data_s -> counts_s) nl k h :
  (forall d, last_counted of_movers h d -> NNm (after count_m count_s nl k h) = Some (count_m d)) /\
  (forall d, last_counted of_stayers h d -> NNs (after count_m count_s nl k h) = Some (count_s d)) /\
  (never_counted of_movers h <-> NNm (after count_m count_s nl k h) = None) /\
  (never_counted of_stayers h <-> NNs (after count_m count_s nl k h) = None).
Proof. exact (counts_stored data_m data_s counts_m counts_s count_m count_s nl k h). Qed.
Print Assumptions C123_counts.

(* Static models: plot_type_proportions works exactly if the counts that the subset needs are
   there, and says which fit is missing otherwise. *)
Theorem C123_static data_m data_s counts_m counts_s
    (count_m : data_m -> counts_m) (count_s : data_s -> counts_s) nl h sub :
  let result := snd (step count_m count_s nl Static (Plot sub) (after count_m count_s nl Static h)) in
  (can_plot sub h -> result = Done) /\ (~ can_plot sub h -> result = Told sub).
Proof. exact (static_plot data_m data_s counts_m counts_s count_m count_s nl h sub). Qed.
Print Assumptions C123_static.

(* Dynamic models: the same for movers and all workers; for stayers only if the counts of both
   movers and stayers are there, or neither. *)
Theorem C123_dynamic_partial data_m data_s counts_m counts_s
    (count_m : data_m -> counts_m) (count_s : data_s -> counts_s) nl h sub :
  sub <> SStayers \/ (never_counted of_movers h <-> never_counted of_stayers h) ->
  let result := snd (step count_m count_s nl Dynamic (Plot sub) (after count_m count_s nl Dynamic h)) in
  (can_plot sub h -> result = Done) /\ (~ can_plot sub h -> result = Told sub).
Proof. exact (dynamic_plot data_m data_s counts_m counts_s count_m count_s nl h sub). Qed.
Print Assumptions C123_dynamic_partial.

(* Dynamic models, stayers: without counts of movers the user is told to fit stayers, whether
   they did or not; with counts of movers and none of stayers, unpacking fails. *)
Theorem C123_dynamic_refuted data_m data_s counts_m counts_s
    (count_m : data_m -> counts_m) (count_s : data_s -> counts_s) nl h :
  let result := snd (step count_m count_s nl Dynamic (Plot SStayers) (after count_m count_s nl Dynamic h)) in
  (never_counted of_movers h -> result = Told SStayers) /\
  (~ never_counted of_movers h -> never_counted of_stayers h -> result = Raises ValueError).
Proof. exact (dynamic_stayers data_m data_s counts_m counts_s count_m count_s nl h). Qed.
Print Assumptions C123_dynamic_refuted.

(* fit_movers_cstr_uncstr with compute_NNm=True: connectedness is that of the data fitted. *)
Theorem C123_connected_partial data_m data_s counts_m counts_s
    (count_m : data_m -> counts_m) (count_s : data_s -> counts_s) nl k h f : f_compute f = true ->
  snd (step count_m count_s nl k (CstrUncstr f false) (after count_m count_s nl k h)) = Done /\
  conn (after count_m count_s nl k (h ++ [CstrUncstr f false])) = Some (f_data f, count_m (f_data f)).
Proof. exact (fun E => conn_counts data_m data_s counts_m counts_s count_m count_s nl k h f _ (or_introl (conj E eq_refl))). Qed.
Print Assumptions C123_connected_partial.

(* If pk1 has missing values it ends, with a warning, and connectedness stays as it was, whatever
   the option. *)
Theorem C123_missing data_m data_s counts_m counts_s
    (count_m : data_m -> counts_m) (count_s : data_s -> counts_s) nl k h f :
  snd (step count_m count_s nl k (CstrUncstr f true) (after count_m count_s nl k h)) = Done /\
  conn (after count_m count_s nl k (h ++ [CstrUncstr f true])) = conn (after count_m count_s nl k h).
Proof. exact (nan_step data_m data_s counts_m counts_s count_m count_s nl k h f). Qed.
Print Assumptions C123_missing.

(* With compute_NNm=False and no missing values it raises AttributeError, if no earlier fit computed the counts ... *)
Theorem C123_no_counts_refuted data_m data_s counts_m counts_s
    (count_m : data_m -> counts_m) (count_s : data_s -> counts_s) nl k h f :
  never_counted of_movers h -> f_compute f = false ->
  snd (step count_m count_s nl k (CstrUncstr f false) (after count_m count_s nl k h)) = Raises AttributeError.
Proof. exact (no_counts data_m data_s counts_m counts_s count_m count_s nl k h f). Qed.
Print Assumptions C123_no_counts_refuted.

(* ... and otherwise combines the new estimates with the counts of the earlier data. *)
Theorem C123_old_counts_refuted data_m data_s counts_m counts_s
    (count_m : data_m -> counts_m) (count_s : data_s -> counts_s) nl k h f d :
  f_compute f = false -> last_counted of_movers h d ->
  snd (step count_m count_s nl k (CstrUncstr f false) (after count_m count_s nl k h)) = Done /\
  conn (after count_m count_s nl k (h ++ [CstrUncstr f false])) = Some (f_data f, count_m d).
Proof. exact (fun E L => conn_counts data_m data_s counts_m counts_s count_m count_s nl k h f d (or_intror (conj E L))). Qed.
Print Assumptions C123_old_counts_refuted.

(* Movers data sets 1 and 2 with 10 times as many movers, stayers 3; counts are not asked for in
   the first fit of movers, but for stayers; then for data 1; then not for data 2. *)
Definition a_fit (d : nat) (b : bool) : mfit nat := mkmfit d b false Cycles.
Definition a_first : list (call nat nat) := [FitMovers (a_fit 1 false); FitStayers 3 true].
Definition a_second : list (call nat nat) := [CstrUncstr (a_fit 1 true) false].
Example C123_case :
  let see k h c := snd (step (Nat.mul 10) S 2 k c (after (Nat.mul 10) S 2 k h)) in
  never_counted of_movers a_first /\ last_counted of_stayers a_first 3 /\
  last_counted of_movers a_second 1 /\ never_counted of_stayers a_second /\
  see Static a_first (Plot SStayers) = Done /\ see Dynamic a_first (Plot SStayers) = Told SStayers /\
  see Static a_second (Plot SStayers) = Told SStayers /\ see Dynamic a_second (Plot SStayers) = Raises ValueError /\
  see Static a_first (CstrUncstr (a_fit 2 false) false) = Raises AttributeError /\
  conn (after (Nat.mul 10) S 2 Static (a_second ++ [CstrUncstr (a_fit 2 false) false])) = Some (2, 10).
Proof.
  split; [|split; [|split; [|split; [|repeat split]]]].
  - intros c d [<-|[<-|[]]]; discriminate.
  - apply (last_here _ _ _ [_]). reflexivity.
  - apply (last_here _ _ _ []). reflexivity.
  - intros c d [<-|[]]; discriminate.
Qed.
