(* Property C111: simulated samples of the dynamic model with control variables. *)
From Coq Require Import String.
From Verif Require Import Base BLMModel BLMRealModel BootModel DBLMModel DBootModel DBootPropLemmas DCtlModel
  DBootCtlModel DBootCtlSpec DBootCtlLemmas.
Local Open Scope list_scope.

(* C111: without control variables the samples are those of C92. *)
Theorem C111_no_controls nl nk t effects p realloc g jd sd gj gs :
  dsimulate_ctl nl nk [] [] t effects p realloc g jd sd gj gs = dsimulate nl nk p realloc g gj gs.
Proof. exact (ctl_none nl nk t effects p realloc g jd sd gj gs). Qed.

(* C111 fails: with a control variable of either kind no sample is ever simulated, whatever the
   parameters, the options, the data and the generator. *)
Theorem C111_refuted nl nk cat cts t effects p realloc g jd sd gj gs :
  cat ++ cts <> [] -> named jd ->
  exists e, dsimulate_ctl nl nk cat cts t effects p realloc g jd sd gj gs = Err e.
Proof. exact (ctl_raises nl nk cat cts t effects p realloc g jd sd gj gs). Qed.

(* C111 fails: in particular for data that have all control variables, an estimated model that
   has their parameters, and draws that succeed without control variables. *)
Theorem C111_key_error_refuted nl nk cat cts t effects p realloc g jd sd gj gs x :
  cat ++ cts <> [] -> named jd -> Forall (fun c => has_column jd (c_name c)) (cat ++ cts) -> estimated t cat cts ->
  dsimulate nl nk p realloc g gj gs = Ok x ->
  dsimulate_ctl nl nk cat cts t effects p realloc g jd sd gj gs = Err KeyError.
Proof. exact (ctl_key nl nk cat cts t effects p realloc g jd sd gj gs x). Qed.

Print Assumptions C111_no_controls.
Print Assumptions C111_refuted.
Print Assumptions C111_key_error_refuted.

Example C111_case : named k_frame /\ has_column k_frame (c_name k_col) /\ estimated k_ctl [k_col] [] /\
  exists x, dsimulate 2 2 e_par None e_rng (map g14 e_jd) (map g1_of e_sd) = Ok x.
Proof. exact k_case. Qed.
