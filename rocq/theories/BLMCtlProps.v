(* C97: the estimation of the BLM model with control variables. *)
From Verif Require Import Base UtilModel UtilSpec ConsModel ConsSpec BLMModel BLMEMModel BLMSpec
  BLMFitModel BLMFitSpec BLMGenModel BLMGenSpec BLMPropLemmas BLMCtlModel BLMCtlSpec BLMCtlPropLemmas BLMCtlRefLemmas
  BLMCtlFallLemmas.
Local Open Scope R_scope.

(* fit_movers runs from the given parameters with worker types renamed, and returns
   the result of the last iteration under some names of the worker types together
   with the likelihood of every iteration.  In each iteration the blocks of effects
   are refitted in turn, each the best of the allowed values given the others, and
   then the variances.  A single run never shows a cycle.  If the lowest firm type is
   forced, or a first run ended with its first cycle, there is a run for each firm type
   and the one with the largest last likelihood is returned. *)
Theorem C97_em argsort solver nl nk cats ctss data c nnm p :
  (forall l, is_argsort l (argsort l)) -> exact_qp solver -> complete_qp solver ->
  (0 < nl)%nat -> (0 < nk)%nat -> Forall (fun x => gc_n x = 1%nat) ctss ->
  ctl_data nk cats ctss data (cs_gen c) -> all_valid (cs_gen c) nl nk (cats ++ ctss) -> 0 < p_lb (cs_gen c) ->
  (cs_a c = true -> cs_s c = true) ->
  (cs_pk1 c = true -> 1 <= cs_prior c /\ all_pairs nk data) -> (2 <= cs_obs c)%nat ->
  ctl_par nl nk cats ctss (cs_gen c) p ->
  exists p' qs pn sg,
    fit_movers_ctl argsort solver nl nk cats ctss data c nnm p
      = Ok (p', last_lik (recorded_liks nl nk data c (map fst qs)), recorded_liks nl nk data c (map fst qs)) /\
    ctl_par nl nk cats ctss (cs_gen c) pn /\ relabelling nl sg /\ same_model nl nk data sg pn p' /\
    ((p_force (cs_gen c) = false /\ run nl nk cats ctss data (cs_gen c) c 0 p qs pn /\
      no_cycle nl nk cats data (cs_gen c) c qs) \/
     ((p_force (cs_gen c) = true \/ exists qs0, cycle_run nl nk cats ctss data (cs_gen c) c p qs0) /\
      exists p1 k (runs : nat -> list (par * nat) * par), but_pk0 p p1 /\ (k < nk)%nat /\ runs k = (qs, pn) /\
        forall j, (j < nk)%nat ->
          run nl nk cats ctss data (forced (cs_gen c)) (cforced c) j p1 (fst (runs j)) (snd (runs j)) /\
          last (recorded_liks nl nk data c (map fst (fst (runs j)))) 0 <= last (recorded_liks nl nk data c (map fst qs)) 0)).
Proof.
  intros sorts ex co Hl Hk Hx D V lb up pr ob G.
  exact (movers_thm argsort solver nl nk cats ctss data sorts ex co Hl Hk Hx c D V lb up pr nnm p ob G).
Qed.
Print Assumptions C97_em.

(* The code gives the squared residuals to every block.  After one iteration with
   control variables, and no constraints on variances, the predicted variance is
   larger than the mean squared residual for every worker type, firm type and
   period. *)
Theorem C97_variance_refuted argsort solver nl nk cats ctss data c nnm p :
  (forall l, is_argsort l (argsort l)) -> exact_qp solver -> complete_qp solver ->
  (0 < nl)%nat -> (0 < nk)%nat -> Forall (fun x => gc_n x = 1%nat) ctss ->
  ctl_data nk cats ctss data (cs_gen c) -> all_valid (cs_gen c) nl nk (cats ++ ctss) -> 0 < p_lb (cs_gen c) ->
  (cs_pk1 c = true -> 1 <= cs_prior c /\ all_pairs nk data) ->
  p_s (cs_gen c) = None -> p_s_all (cs_gen c) = None -> cats <> [] \/ ctss <> [] ->
  cs_s c = true -> cs_iters c = 1%nat ->
  ctl_par nl nk cats ctss (cs_gen c) p ->
  exists p' lik liks sg, fit_movers_ctl argsort solver nl nk cats ctss data c nnm p = Ok (p', lik, liks) /\
    relabelling nl sg /\ forall t l k, (l < nl)%nat -> (k < nk)%nat ->
      weighted nl nk data p t k (sg l) (resid_sq t p' l) < weighted nl nk data p t k (sg l) (var t p' l).
Proof.
  intros sorts ex co Hl Hk Hx D V lb pr n1 n2 hc so one G.
  exact (variance_over argsort solver nl nk cats ctss data sorts ex co Hl Hk Hx c D V lb pr n1 n2 hc so one nnm p G).
Qed.
Print Assumptions C97_variance_refuted.

(* The likelihood can fall from one iteration to the next, although no proportions
   are updated and the solver is exact: one worker type, one firm type, a column with
   one category and two workers with wages 1 and -1. *)
Theorem C97_likelihood_refuted argsort solver nnm :
  (forall l, is_argsort l (argsort l)) -> exact_qp solver -> complete_qp solver ->
  exists p' lik l0 l1,
    fit_movers_ctl argsort solver 1 1 fcats [] fdata fctl nnm fpar = Ok (p', lik, [l0; l1]) /\ l1 < l0.
Proof. exact (falls argsort solver nnm). Qed.
Print Assumptions C97_likelihood_refuted.

(* With update_a and not update_s there is no result. *)
Theorem C97_update_a_refuted argsort solver nl nk cats ctss data c nnm p :
  cs_a c = true -> cs_s c = false -> (0 < cs_iters c)%nat ->
  exists e, fit_movers_ctl argsort solver nl nk cats ctss data c nnm p = Err e.
Proof. exact (only_A argsort solver nl nk cats ctss data c nnm p). Qed.
Print Assumptions C97_update_a_refuted.

(* A case: two worker types, two firm types, a categorical column that is the same
   for the worker types and stationary, and a continuous column that interacts. *)
Definition eset : gset := mkgset None None None None (1 / 10) 0 0 true false true PFirst.
Definition ectl (n : nat) : cset := mkcset true true true n (1 / 1000) 2 5 5 eset.
Example C97_case n :
  (forall l, is_argsort l (isort l)) /\ exact_qp ideal_qp /\ complete_qp ideal_qp /\
  ctl_data 2 ecats ectss edata (cs_gen (ectl n)) /\ all_valid (cs_gen (ectl n)) 2 2 (ecats ++ ectss) /\
  all_pairs 2 edata /\ ctl_par 2 2 ecats ectss (cs_gen (ectl n)) epar /\
  (exists r, fit_movers_ctl isort ideal_qp 2 2 ecats ectss edata (ectl n) true epar = Ok r) /\
  (exists p' lik liks sg, fit_movers_ctl isort ideal_qp 2 2 ecats ectss edata (ectl 1) true epar = Ok (p', lik, liks) /\
     relabelling 2 sg /\
     weighted 2 2 edata epar true 1 (sg 1%nat) (resid_sq true p' 1) < weighted 2 2 edata epar true 1 (sg 1%nat) (var true p' 1)).
Proof.
  assert (V : all_valid eset 2 2 (ecats ++ ectss)).
  { split; [intros o []|]. intros x o [<-|[<-|[]]]; cbn; [|tauto]. intros [<-|[]]. cbn. lia. }
  assert (X : Forall (fun x => gc_n x = 1%nat) ectss) by (repeat constructor).
  split; [exact isort_ok|]. split; [exact ideal_qp_exact|]. split; [exact ideal_qp_complete|].
  split; [apply edata_ok|]. split; [exact V|]. split; [exact epairs|]. split; [apply epar_ok|]. split.
  - destruct (C97_em isort ideal_qp 2 2 ecats ectss edata (ectl n) true epar isort_ok ideal_qp_exact ideal_qp_complete)
      as (p' & qs & pn & sg & E & _); try (auto; fail); try lia.
    + apply edata_ok.
    + cbn. lra.
    + intros _. split; [cbn; lra|exact epairs].
    + cbn. lia.
    + apply epar_ok.
    + eexists. exact E.
  - destruct (C97_variance_refuted isort ideal_qp 2 2 ecats ectss edata (ectl 1) true epar isort_ok ideal_qp_exact ideal_qp_complete)
      as (p' & lik & liks & sg & E & R & H); try (auto; fail); try lia.
    + apply edata_ok.
    + cbn. lra.
    + intros _. split; [cbn; lra|exact epairs].
    + left. discriminate.
    + apply epar_ok.
    + exists p', lik, liks, sg. split; [exact E|]. split; [exact R|]. apply H; lia.
Qed.
