(* Properties C41, C42, C43 and C45: pytwoway/blm.py, the choice among estimated
   models, the phases of the estimation, and the combination of counts with type
   proportions. *)
From Verif Require Import Base ConsModel BLMModel BLMRunModel BLMRealModel BLMFitModel
  BLMRunSpec BLMRunLemmas BLMRealLemmas BLMRunPropLemmas.
From Coq Require Import Permutation.
Local Open Scope R_scope.

(* ================================================================== C41 *)
(* The candidates are the models with a connectedness measure.  They split into
   n_best with the highest likelihoods (all of them if there are fewer) and the
   rest; the model kept is one of the former with the highest connectedness.
   n_best = 0, no candidate, and n_best > number of models are errors. *)
Theorem C41_selection (M : Type) (lik1 : M -> R) (liks1 : M -> list R)
    (connectedness : M -> option R) (models : list M) (n_best : nat) :
  let cands := filter (fun m => match connectedness m with Some _ => true | None => false end) models in
  let conn m := match connectedness m with Some c => c | None => 0 end in
  ((length models < n_best)%nat -> select lik1 liks1 connectedness models n_best = Err ValueError) /\
  ((n_best <= length models)%nat -> n_best = 0%nat \/ cands = [] ->
     select lik1 liks1 connectedness models n_best = Err IndexError) /\
  ((0 < n_best <= length models)%nat -> cands <> [] ->
   exists f best low, select lik1 liks1 connectedness models n_best = Ok f /\
     Permutation (best ++ low) cands /\ length best = Nat.min n_best (length cands) /\
     (forall a b, In a best -> In b low -> lik1 b <= lik1 a) /\
     In (f_model f) best /\ (forall a, In a best -> conn a <= conn (f_model f)) /\
     f_liks_high f = map lik1 best ++ repeat 0 (n_best - length best) /\
     f_connectedness_high f = map conn best ++ repeat 0 (n_best - length best) /\
     f_liks_low f = map lik1 low ++ repeat 0 (length models - n_best - length low) /\
     f_connectedness_low f = map conn low ++ repeat 0 (length models - n_best - length low) /\
     f_liks_all f = map liks1 (best ++ low)).
Proof. exact (select_spec lik1 liks1 connectedness models n_best). Qed.
Print Assumptions C41_selection.

(* With force_min_firm_type: the highest likelihood over the lowest firm types,
   the first of them on ties. *)
Theorem C41_force_min (M : Type) (lik1 : M -> R) (m : nat -> M) fit nk :
  (forall k, (k < nk)%nat -> fit k = Ok (m k)) -> (0 < nk)%nat ->
  exists k0, (k0 < nk)%nat /\ force_min lik1 fit nk = Ok (m k0) /\
    (forall k, (k < nk)%nat -> lik1 (m k) <= lik1 (m k0)) /\
    (forall k, (k < k0)%nat -> lik1 (m k) < lik1 (m k0)).
Proof. exact (force_min_best lik1 m fit nk). Qed.
Print Assumptions C41_force_min.

Theorem C41_force_min_error (M : Type) (lik1 : M -> R) fit nk k e :
  (k < nk)%nat -> (forall j, (j < k)%nat -> exists x, fit j = Ok x) -> fit k = Err e ->
  force_min lik1 fit nk = Err e.
Proof. exact (force_min_err lik1 fit nk k e). Qed.
Print Assumptions C41_force_min_error.

(* Four models, one without a measure although its likelihood is the highest,
   two with the same likelihood. *)
Example C41_case : exists f,
  select r_lik (fun m => [r_lik m]) r_conn ex_runs 2 = Ok f /\ f_model f = mkrun 3 (Some 2) /\
  f_liks_high f = [3; 3] /\ f_liks_low f = [1; 0].
Proof. exact ex_runs_pick. Qed.

(* ================================================================== C42 *)
(* Whatever the inner fits do to the object, its parameters included: if the
   method ends normally the parameters are the user's.  Missing against the
   property: exceptions (refuted below). *)
Theorem C42_restored_partial (X M : Type) nl fit_movers connectedness_measure nan
    (a s_ k b : bool) (s : obj X M) :
  let r := fit_movers_cstr_uncstr nl fit_movers connectedness_measure nan b s in
  let r' := fit_part fit_movers a s_ k b s in
  (snd r = None -> params (fst r) = params s) /\
  (snd r' = None -> params (fst r') = params s).
Proof.
  exact (conj (cstr_restores nl fit_movers connectedness_measure nan b s)
              (part_restores fit_movers a s_ k b s)).
Qed.
Print Assumptions C42_restored_partial.

(* The phases that are run: the calls of documented_calls, in order, then the
   connectedness measure unless pk1 has nan entries. *)
Theorem C42_phases (X M : Type) nl fit conn nan b (s : obj X M) m :
  run_calls fit (documented_calls nl b (params s)) (rest s) = (m, None) ->
  let s' := mkobj (mkcfg true true true (cons_a_all (params s)) (other (params s))) m in
  nan s' = true \/ snd (conn s') = None ->
  fit_movers_cstr_uncstr nl (as_method fit) conn nan b s
  = (mkobj (params s) (if nan s' then m else rest (fst (conn s'))), None).
Proof. exact (cstr_runs nl fit conn nan b s m). Qed.
Print Assumptions C42_phases.

(* fit_A, fit_S and fit_pk are one call of fit_movers in which only A, only S, or only
   the proportions are updated. *)
Theorem C42_parts (X M : Type) fit b (s : obj X M) m :
  let only a s_ k := mkcfg a s_ k (cons_a_all (params s)) (other (params s)) in
  (fit b (only true false false) (rest s) = (m, None) ->
     fit_A (as_method fit) b s = (mkobj (params s) m, None)) /\
  (fit b (only false true false) (rest s) = (m, None) ->
     fit_S (as_method fit) b s = (mkobj (params s) m, None)) /\
  (fit b (only false false true) (rest s) = (m, None) ->
     fit_pk (as_method fit) b s = (mkobj (params s) m, None)).
Proof. exact (parts_run fit b s m). Qed.
Print Assumptions C42_parts.

(* REFUTED for exceptions: the parameters are those of the call that failed. *)
Theorem C42_failure_refuted (X M : Type) nl fit conn nan b (s : obj X M) m e done c rest_calls :
  documented_calls nl b (params s) = done ++ c :: rest_calls ->
  (exists m0, run_calls fit done (rest s) = (m0, None) /\ fit (fst c) (snd c) m0 = (m, Some e)) ->
  fit_movers_cstr_uncstr nl (as_method fit) conn nan b s = (mkobj (snd c) m, Some e).
Proof. exact (cstr_fails nl fit conn nan b s m e done c rest_calls). Qed.
Print Assumptions C42_failure_refuted.

(* REFUTED in every call of fit_A that iterates (model without controls): the
   fit raises, and update_s and update_pk1 stay switched off. *)
Theorem C42_fit_A_refuted argsort qp_solver pp nl nk data b (s : obj settings state) :
  n_iters (other (params s)) <> 0%nat ->
  let r := fit_A (fit_movers_obj argsort qp_solver pp nl nk data) b s in
  exists e, snd r = Some e /\ params (fst r) = set_updates true false false (params s).
Proof. exact (fit_A_raises argsort qp_solver pp nl nk data b s). Qed.
Print Assumptions C42_fit_A_refuted.

Example C42_case : n_iters (other (params ra_state)) <> 0%nat /\
  set_updates true false false (params ra_state) <> params ra_state /\
  documented_calls 2 true ra_cfg
  = [(false, mkcfg false true true None (other ra_cfg));
     (false, mkcfg true true true (Some [CLinearAdditive None 2]) (other ra_cfg));
     (false, mkcfg true true true (Some [CStationaryFirmTypeVariation None 2]) (other ra_cfg));
     (true, mkcfg true true true None (other ra_cfg))].
Proof. exact (conj (fun H => O_S _ (eq_sym H)) (conj ra_changed eq_refl)). Qed.

(* ================================================================== C43 *)
(* What is paired: the count of moves from a to b with the proportions of the
   moves from b to a. *)
Theorem C43_pairing nk NN pk1 a b l : pr nk NN pk1 a b l = NN a b * prop_of nk pk1 b a l.
Proof. exact (pr_swapped nk NN pk1 a b l). Qed.
Print Assumptions C43_pairing.

(* With as many moves from a to b as from b to a the connectedness graph is the
   one of the moves of worker type l; missing: other counts (refuted below). *)
Theorem C43_graph_partial nk NN pk1 l a b : symmetric nk NN -> (a < nk)%nat -> (b < nk)%nat ->
  graph_weights nk NN pk1 l a b
  = (type_moves nk NN pk1 a b l + type_moves nk NN pk1 b a l) / 2
    / sumn nk (fun k1 => sumn nk (fun k2 => type_moves nk NN pk1 k1 k2 l)).
Proof. exact (symmetric_graph nk NN pk1 l a b). Qed.
Print Assumptions C43_graph_partial.

(* REFUTED: the graph; and even with symmetric counts the proportions plotted for
   the first period are those of the movers arriving, and the other way round. *)
Theorem C43_graph_refuted : ~ (forall nl nk NN Ns pk1 pk0 l a b,
  counts_ok nk NN Ns -> props_ok nl nk pk1 pk0 -> (a < nk)%nat -> (b < nk)%nat -> (l < nl)%nat ->
  graph_weights nk NN pk1 l a b
  = (type_moves nk NN pk1 a b l + type_moves nk NN pk1 b a l) / 2
    / sumn nk (fun k1 => sumn nk (fun k2 => type_moves nk NN pk1 k1 k2 l))).
Proof.
  exact (fun H =>
    let E := H 2%nat 2%nat cx_NN cx_Ns cx_pk1 cx_pk0 0%nat 0%nat 1%nat cx_counts cx_props
      (le_S _ _ (le_n 1)) (le_n 2) (le_S _ _ (le_n 1)) in
    graph_differs E).
Qed.
Print Assumptions C43_graph_refuted.

Theorem C43_shares_refuted nl nk NN Ns pk1 pk0 : counts_ok nk NN Ns -> props_ok nl nk pk1 pk0 ->
  symmetric nk NN ->
  exists p1 p2, type_proportions nk SMovers RFirst NN Ns pk1 pk0 = Ok p1 /\
    type_proportions nk SMovers RSecond NN Ns pk1 pk0 = Ok p2 /\
    forall k l, (k < nk)%nat ->
      p1 k l = type_arriving nk NN pk1 k l / sumn nk (fun a => NN a k) /\
      p2 k l = type_leaving nk NN pk1 k l / sumn nk (fun b => NN k b).
Proof. exact (symmetric_shares nl nk NN Ns pk1 pk0). Qed.
Print Assumptions C43_shares_refuted.

(* ... and so are those plotted for movers and stayers together. *)
Theorem C43_shares_all_refuted nl nk NN Ns pk1 pk0 : counts_ok nk NN Ns -> props_ok nl nk pk1 pk0 ->
  symmetric nk NN ->
  exists p1 p2, type_proportions nk SAll RFirst NN Ns pk1 pk0 = Ok p1 /\
    type_proportions nk SAll RSecond NN Ns pk1 pk0 = Ok p2 /\
    forall k l, (k < nk)%nat ->
      p1 k l = (type_arriving nk NN pk1 k l + Ns k * pk0 k l) / (sumn nk (fun a => NN a k) + Ns k) /\
      p2 k l = (type_leaving nk NN pk1 k l + Ns k * pk0 k l) / (sumn nk (fun b => NN k b) + Ns k).
Proof. exact (symmetric_shares_all nl nk NN Ns pk1 pk0). Qed.
Print Assumptions C43_shares_all_refuted.

Example C43_case : counts_ok 2 sy_NN cx_Ns /\ symmetric 2 sy_NN /\ props_ok 2 2 cx_pk1 cx_pk0 /\
  type_arriving 2 sy_NN cx_pk1 0 0 / sumn 2 (fun a => sy_NN a 0%nat) = 1 / 8 /\
  type_leaving 2 sy_NN cx_pk1 0 0 / sumn 2 (fun b => sy_NN 0%nat b) = 7 / 8.
Proof. exact (conj sy_counts (conj sy_sym (conj cx_props sy_value))). Qed.

(* ================================================================== C45 *)
(* The proportions are the same for all firm types (pairs) and a distribution.
   Missing: reallocate_jointly=False with period 'second' or 'all'. *)
Theorem C45_distribution_partial nl nk NN Ns pk1 pk0 (jointly : bool) per :
  counts_ok nk NN Ns -> props_ok nl nk pk1 pk0 ->
  jointly = true \/ per = RFirst -> per <> ROther ->
  exists r1 r0, reallocate nl nk jointly per NN Ns pk1 pk0 = Ok ((fun _ => r1), (fun _ => r0)) /\
    prob_vec nl r1 /\ prob_vec nl r0 /\ (jointly = true -> r1 = r0).
Proof. exact (fun C P => reallocate_ok nl nk NN Ns pk1 pk0 C P jointly per). Qed.
Print Assumptions C45_distribution_partial.

(* REFUTED for the settings left out: pk0_period2 is unbound, for all inputs. *)
Theorem C45_refuted nl nk NN Ns pk1 pk0 per : per = RSecond \/ per = RAll ->
  reallocate nl nk false per NN Ns pk1 pk0 = Err UnboundLocalError.
Proof. exact (reallocate_unbound nl nk NN Ns pk1 pk0 per). Qed.
Print Assumptions C45_refuted.

(* With symmetric counts (see C43) the proportions are the shares of the worker
   types among all workers, or among movers and among stayers. *)
Theorem C45_shares nl nk NN Ns pk1 pk0 per :
  counts_ok nk NN Ns -> symmetric nk NN -> per = RFirst \/ per = RSecond ->
  exists r, reallocate nl nk true per NN Ns pk1 pk0 = Ok ((fun _ => r), (fun _ => r)) /\
    forall l, r l = (sumn nk (fun k1 => sumn nk (fun k2 => type_moves nk NN pk1 k1 k2 l))
                     + sumn nk (fun k => Ns k * pk0 k l))
                    / (sumn nk (fun a => sumn nk (fun b => NN a b)) + sumn nk Ns).
Proof. exact (fun C S => share_joint nl nk NN Ns pk1 pk0 C S per). Qed.
Print Assumptions C45_shares.

Theorem C45_shares_apart nl nk NN Ns pk1 pk0 :
  counts_ok nk NN Ns -> symmetric nk NN ->
  exists r1 r0, reallocate nl nk false RFirst NN Ns pk1 pk0 = Ok ((fun _ => r1), (fun _ => r0)) /\
    forall l, r1 l = sumn nk (fun k1 => sumn nk (fun k2 => type_moves nk NN pk1 k1 k2 l))
                     / sumn nk (fun a => sumn nk (fun b => NN a b)) /\
              r0 l = sumn nk (fun k => Ns k * pk0 k l) / sumn nk Ns.
Proof. exact (fun C S => share_apart nl nk NN Ns pk1 pk0 C S). Qed.
Print Assumptions C45_shares_apart.

(* The proportions plotted are distributions too. *)
Theorem C45_plotted nl nk NN Ns pk1 pk0 sub per :
  counts_ok nk NN Ns -> props_ok nl nk pk1 pk0 -> per <> ROther ->
  exists pm, type_proportions nk sub per NN Ns pk1 pk0 = Ok pm /\
    forall k, (k < nk)%nat -> prob_vec nl (pm k).
Proof. exact (fun C P => proportions_ok nl nk NN Ns pk1 pk0 C P sub per). Qed.
Print Assumptions C45_plotted.

(* Those of the stayers are the estimated ones, in all periods. *)
Theorem C45_plotted_stayers nk NN Ns pk1 pk0 per : per <> ROther ->
  exists pm, type_proportions nk SStayers per NN Ns pk1 pk0 = Ok pm /\ forall k l, pm k l = pk0 k l.
Proof. exact (stayer_proportions nk NN Ns pk1 pk0 per). Qed.
Print Assumptions C45_plotted_stayers.

Example C45_case : counts_ok 2 cx_NN cx_Ns /\ props_ok 2 2 cx_pk1 cx_pk0 /\
  counts_ok 2 sy_NN cx_Ns /\ symmetric 2 sy_NN.
Proof. exact (conj cx_counts (conj cx_props (conj sy_counts sy_sym))). Qed.
