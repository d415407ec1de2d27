(* Properties of simulated Borovickova-Shimer data. *)
From Verif Require Import Base UtilSpec BLMPropLemmas SBsModel SBsSpec SBsPropLemmas.
From Coq Require Import Permutation.
Local Open Scope R_scope.

(* C99: every drawn worker and firm has its drawn number of matches, raised to 2; matches
   are assortative in the score; wages are the two columns and an error *)
Theorem C99_matches : forall argsort, (forall l, is_argsort l (argsort l)) ->
  forall s g fuel rows, sbs_simulate argsort s g fuel = Ok rows ->
  exists ws fs firm,
  firstn (length (g_workers g)) ws = map (Nat.max 2) (g_workers g) /\
  firstn (length (g_firms g)) fs = map (Nat.max 2) (g_firms g) /\
  Forall (le 2) ws /\ Forall (le 2) fs /\
  matched ws fs firm (fun f => sqrt (mu_sq s) * z_mu g f)
    (fun r i => sqrt (lambda_sq s) * z_lambda g i * rho s * sqrt (mu_sq s) / sqrt (lambda_sq s)
                + sqrt (mu_sq s) * sqrt (1 - rho s ^ 2) * z_chi g r)
    (map (fun r => (b_i r, b_j r)) rows) /\
  forall r x, nth_error rows r = Some x ->
    let l := sqrt (lambda_sq s) * z_lambda g (b_i x) in let m := sqrt (mu_sq s) * z_mu g (firm (b_j x)) in
    b_y x = wage s l m (z_eps g r) /\ b_lambda x = coef_a s * l /\ b_mu x = coef_b s * m.
Proof. exact simulate_spec. Qed.
Print Assumptions C99_matches.

Example C99_case : exists rows, sbs_simulate isort sbs_default case_gen 2 = Ok rows /\ length rows = 7%nat /\
  count (fun r => 1 =? b_i r)%nat rows = 3%nat.
Proof. exact case_thm. Qed.

(* C100: the wages have the standard deviation asked for, and the worker and firm effects
   are the best linear predictions of the wage *)
Theorem C100_moments : forall A (omega : list A) (pr : A -> R) s, -1 < rho s < 1 -> 0 < lambda_sq s -> 0 < mu_sq s ->
  forall l m z, 0 <= sigma_wages s -> sbs_init s = Ok tt ->
  moments omega pr l m z (sqrt (lambda_sq s)) (sqrt (mu_sq s)) (rho s) 1 ->
  let y w := wage s (l w) (m w) (z w) in
  expect omega pr y = 0 /\ expect omega pr (fun w => y w ^ 2) = sigma_wages s ^ 2 /\
  expect omega pr (fun w => y w * l w) = lambda_sq s /\ expect omega pr (fun w => y w * m w) = mu_sq s.
Proof. exact @moments_thm. Qed.
Print Assumptions C100_moments.

Example C100_case : sbs_init sbs_default = Ok tt /\
  moments draws8 prob8 (fun w => fst (fst w)) (fun w => snd (fst w)) (fun w => snd w)
    (sqrt (lambda_sq sbs_default)) (sqrt (mu_sq sbs_default)) (rho sbs_default) 1.
Proof. exact (conj default_init draws8_moments). Qed.

(* a standard deviation that is refused is too small for any wages with such effects *)
Theorem C100_refused : forall A (omega : list A) (pr : A -> R) s, -1 < rho s < 1 -> 0 < lambda_sq s -> 0 < mu_sq s ->
  forall l m y, 0 <= sigma_wages s -> sbs_init s = Err ValueError -> (forall w, In w omega -> 0 <= pr w) ->
  expect omega pr (fun w => l w ^ 2) = lambda_sq s -> expect omega pr (fun w => m w ^ 2) = mu_sq s ->
  expect omega pr (fun w => l w * m w) = rho s * sqrt (lambda_sq s) * sqrt (mu_sq s) ->
  expect omega pr (fun w => y w * l w) = lambda_sq s -> expect omega pr (fun w => y w * m w) = mu_sq s ->
  sigma_wages s ^ 2 < expect omega pr (fun w => y w ^ 2).
Proof. exact @refused_thm. Qed.
Print Assumptions C100_refused.

Example C100_refused_case : sbs_init (mksbs 1 1 1 (1 / 4)) = Err ValueError.
Proof. exact case_refused. Qed.

(* the column lambda_i (by C99 coef_a times the effect) is the effect itself exactly if the
   correlation is 0 or sigma_mu = rho * sigma_lambda; mu_j likewise *)
Theorem C100_column_lambda : forall s, -1 < rho s < 1 -> 0 < lambda_sq s ->
  coef_a s = 1 <-> rho s = 0 \/ sqrt (mu_sq s) = rho s * sqrt (lambda_sq s).
Proof. exact column_l_iff. Qed.
Print Assumptions C100_column_lambda.
Theorem C100_column_mu : forall s, -1 < rho s < 1 -> 0 < mu_sq s ->
  coef_b s = 1 <-> rho s = 0 \/ sqrt (lambda_sq s) = rho s * sqrt (mu_sq s).
Proof. exact column_m_iff. Qed.
Print Assumptions C100_column_mu.

(* with the default parameters the column is 4/5 of the effect *)
Theorem C100_columns_refuted : forall argsort, (forall l, is_argsort l (argsort l)) -> forall g fuel rows x,
  sbs_simulate argsort (mksbs 1 1 2 (1 / 4)) g fuel = Ok rows -> In x rows ->
  b_lambda x = 4 / 5 * (sqrt 1 * z_lambda g (b_i x)).
Proof. exact default_columns. Qed.
Print Assumptions C100_columns_refuted.
