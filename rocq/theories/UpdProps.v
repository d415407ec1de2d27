(* Property C120: pytwoway/blm.py, the options update_a, update_s and update_pk1 of the
   static model. *)
From Verif Require Import Base UtilModel UtilSpec ConsModel ConsSpec BLMModel BLMEMModel BLMSpec
  BLMRunModel BLMRunSpec BLMFitModel BLMFitSpec BLMPropLemmas BLMFitPropLemmas UpdSpec UpdLemmas.
Local Open Scope res_scope.
Local Open Scope R_scope.

(* fit_movers keeps the parameters whose update is switched off.  The worker types may
   change their names, all parameters in the same way. *)
Theorem C120_kept argsort solver pp nl nk c compute_NNm min data p p' lik liks :
  (forall l, is_argsort l (argsort l)) ->
  fit_movers_ argsort solver pp nl nk c compute_NNm min data p = Ok (p', lik, liks) ->
  exists s, relabelling nl s /\
    (do_a c = false -> kept_A nl nk s p p') /\
    (do_s c = false -> kept_S nl nk s p p') /\
    (do_pk1 c = false -> kept_pk1 nl nk s p p').
Proof.
  intros Ha. exact (kept_lemma argsort Ha solver pp nl nk c compute_NNm min data p p' lik liks).
Qed.
Print Assumptions C120_kept.

(* update_s = False with update_a = True: fit_movers never returns. *)
Theorem C120_s_alone_refuted argsort solver pp nl nk c compute_NNm min data p x :
  do_a c = true -> do_s c = false -> n_iters (other c) <> 0%nat ->
  fit_movers_ argsort solver pp nl nk c compute_NNm min data p <> Ok x.
Proof. exact (s_off_lemma argsort solver pp nl nk c compute_NNm min data p x). Qed.
Print Assumptions C120_s_alone_refuted.

(* BLMEstimator ignores the options: fit_movers_cstr_uncstr ends with the same estimates,
   or the same exception, whatever their values and whatever fit_movers does. *)
Theorem C120_estimator_refuted {X M : Type} nl fit connectedness nan compute_NNm (c : cfg X) (m : M) a s k :
  let run c := fit_movers_cstr_uncstr nl (as_method fit) connectedness nan compute_NNm (mkobj c m) in
  snd (run (set_updates a s k c)) = snd (run c) /\
  rest (fst (run (set_updates a s k c))) = rest (fst (run c)).
Proof. exact (ignored_lemma nl fit connectedness nan compute_NNm c m a s k). Qed.
Print Assumptions C120_estimator_refuted.

(* Two worker types, two firm types, four movers: a fit with update_a = False that returns. *)
Example C120_case :
  exists p' lik liks,
    fit_movers_ isort box_solver PFirst 2 2 (set_updates false true true (fit_cfg 1)) true 0 ex_data gap_par
    = Ok (p', lik, liks).
Proof. exact (case_kept true). Qed.
(* A fit that adds 1 to the effects exactly when update_a is True: with update_a = False
   the estimator ends with effects 3 higher. *)
Example C120_estimator_case (c : cfg settings) :
  let fit (b : bool) c (x : nat) := ((if do_a c then x + 1 else x)%nat, None) in
  rest (fst (fit_movers_cstr_uncstr 2 (as_method fit) (fun o => (o, None)) (fun _ => false) true
    (mkobj (set_updates false true true c) 5%nat))) = 8%nat.
Proof. reflexivity. Qed.
