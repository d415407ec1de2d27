(* C114, C115: the results of the fixed-effects estimators and the requests fit can serve. *)
From Coq Require Import String Permutation.
From Verif Require Import Base MCModel MCSpec FEFitModel FEFitSpec FEFitPropLemmas FEFitFlow.
Local Open Scope string_scope.
Local Open Scope list_scope.

(* C114.  Whatever the order sorted() gives: assembling the results does not raise; every
   plug-in estimate, correction and trace asked for is reported under its key, a correction
   being the plug-in estimate minus sigma^2 times the mean trace (homoskedastic) or minus the
   mean trace (heteroskedastic); every other entry is as before; and the summary has exactly
   its keys, with the values of the results.  No variance may have the name var(eps). *)
Theorem C114_results sorted ho he p r0 :
  (forall l, Permutation (sorted l) l) ->
  well_named p -> ~ In "var(eps)" (map fst (var_fe p)) -> traced ho he p -> prepared he r0 ->
  exists r s, collect_res sorted ho he p r0 [] = Ok (r, s) /\
    (forall k v, reported ho he p k v -> has r k v) /\
    (forall k, (forall v, ~ reported ho he p k v) -> forall v, has r k v <-> has r0 k v) /\
    (forall k v, has s k v <-> in_summary ho he p k /\ has r k v).
Proof. exact (fun SP => collect_lemma sorted SP ho he p r0). Qed.
Print Assumptions C114_results.

(* Without the condition on the name C114 fails: the variance of a control variable eps takes
   the key of the residual variance, in the results and in the summary. *)
Theorem C114_eps_refuted sorted p r0 v y :
  (forall l, Permutation (sorted l) l) ->
  has r0 "var(y)" y -> has (var_fe p) "var(eps)" v -> well_named p ->
  exists r s, collect_res sorted false false p r0 [] = Ok (r, s) /\
    has r "var(eps)_fe" v /\ has s "var(eps)_fe" v.
Proof. exact (eps_lost sorted p r0 v y). Qed.
Print Assumptions C114_eps_refuted.

(* With an output file no number is left in the results: all are text. *)
Theorem C114_output_refuted str f r k v : has (save_res str (Some f) r) k v -> exists t, v = Text t.
Proof. exact (saved_text str f r k v). Qed.
Print Assumptions C114_output_refuted.

(* C115.  For all options and whatever an earlier fit has left on the object: unless given
   leverages are combined with an analytical heteroskedastic trace, an analytical trace is
   asked of the variance of psi + alpha, or an approximate trace has an empty list of
   variances or covariances, fit finds all it needs, leaves the estimates asked for and
   deletes the working matrices; of what only some options need nothing is left that was not
   there before. *)
Theorem C115_completes o s :
  ~ (corrected o /\ (lev_and_exact o \/ exact_gamma o \/ approx_empty o)) ->
  exists t, fit_flow o s = Ok t /\ (forall a, working a -> t a = false) /\
    (forall a, temporary a -> (a = Asqrt -> o_he o = false \/ corrected o) -> s a = false -> t a = false) /\
    (o_statsonly o = false -> t Aols = true) /\
    (corrected o -> t Aresid = true /\ t Aplug = true /\
       (o_ho o = true -> t Asigho = true /\ t Atrho = true) /\
       (o_he o = true -> t Alev = true /\ t Aepshe = true /\ t Atrhe = true)).
Proof. exact (flow_lemma o s). Qed.
Print Assumptions C115_completes.

(* Given leverages and an analytical heteroskedastic trace: fit raises, because the matrices
   the trace needs are prepared only if leverages are not given. *)
Theorem C115_levfile_refuted o s :
  corrected o -> lev_and_exact o -> ~ exact_gamma o -> ~ approx_empty o -> s Asqrt = false ->
  fit_flow o s = Err AttributeError.
Proof. exact (flow_lev o s). Qed.
Print Assumptions C115_levfile_refuted.

(* An empty list of variances or covariances and an approximate homoskedastic trace: fit raises
   at the deletion of a variable that only the loop over the list would have set. *)
Theorem C115_empty_refuted o s :
  corrected o -> o_ho o = true -> o_exact_ho o = false -> o_empty o = true ->
  fit_flow o s = Err UnboundLocalError.
Proof. exact (flow_empty o s). Qed.
Print Assumptions C115_empty_refuted.

(* With he and no corrections to compute (statsonly or feonly) the matrices prepared for the
   leverages are left on the object. *)
Theorem C115_left_refuted o s : o_he o = true -> o_levfile o = false -> ~ corrected o ->
  exists t, fit_flow o s = Ok t /\ t Asqrt = true.
Proof. exact (flow_sqrt_left o s). Qed.
Print Assumptions C115_left_refuted.

(* The defaults: var(psi) and cov(psi, alpha) with both corrections, three draws. *)
Definition case_parts : parts :=
  mkparts 2 3 [("var(psi)", 5%R)] [("cov(psi, alpha)", 1%R)]
    [("var(psi)", [1; 2; 3]%R)] [("cov(psi, alpha)", [0; 0; 1]%R)]
    [("var(psi)", [1; 1; 1]%R)] [("cov(psi, alpha)", [2; 0; 1]%R)].
Definition case_res : rdict := [("var(y)", 7%R); ("var(eps)_he", 4%R); ("min_lev", 0%R); ("max_lev", 1%R)].
Example C114_case : well_named case_parts /\ ~ In "var(eps)" (map fst (var_fe case_parts)) /\
  traced true true case_parts /\ prepared true case_res.
Proof.
  assert (H1 : forall V (x : V) k, has [(k, x)] k x) by (intros V x k; exists [], []; split; [reflexivity|intros []]).
  split; [|split; [|split]].
  - split; [|split; [|split]]; cbn; repeat constructor; try (intros []); [now exists "psi)"|now exists "psi, alpha)"].
  - cbn. intros [H|[]]. discriminate.
  - split; intros _; split; cbn; intros n [<-|[]]; eexists; apply H1.
  - split; [|intros _; split; [|split]].
    + exists 7%R, [], (tl case_res). split; [reflexivity|]. intros [].
    + exists 4%R, (firstn 1 case_res), (skipn 2 case_res). split; [reflexivity|]. cbn. intros [H|[]]; discriminate.
    + exists 0%R, (firstn 2 case_res), (skipn 3 case_res). split; [reflexivity|]. cbn. intros [H|[H|[]]]; discriminate.
    + exists 1%R, (firstn 3 case_res), []. split; [reflexivity|]. cbn. intros [H|[H|[H|[]]]]; discriminate.
Qed.

(* Both corrections with given leverages and approximate traces. *)
Definition case_opts : fopts := mkfopts true true true false false true false false false false true true false false.
Example C115_case : corrected case_opts /\ o_he case_opts = true /\ o_levfile case_opts = true /\
  ~ (corrected case_opts /\ (lev_and_exact case_opts \/ exact_gamma case_opts \/ approx_empty case_opts)).
Proof.
  repeat split. intros (_ & [(_ & _ & H)|[(H & _)|(H & _)]]); discriminate.
Qed.
