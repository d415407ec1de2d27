(* C52: the variances of stayers in the dynamic BLM estimator. *)
From Verif Require Import Base DynModel DynSpec DynLemmas DynPropLemmas.
Local Open Scope R_scope.

(* The left-hand sides are the moments that the wage equations imply. *)
Theorem C52_moments r1 r4 rt l nk w s e g : uncorrelated_parts l -> (g < nk)%nat -> (e < 10)%nat ->
  system_levels r1 r4 rt nk (map (observed r1 r4 rt) l) w = Ok s ->
  sY s (e * nk + g)%nat =
  let '(t1, t2) := nth e [(0,0);(1,1);(2,2);(3,3);(0,1);(0,2);(0,3);(1,2);(1,3);(2,3)]%nat (0,0)%nat in
  implied r1 r4 rt (fun b => true_var l b g) t1 t2.
Proof. exact (moments_right r1 r4 rt l nk w s e g). Qed.
Print Assumptions C52_moments.

(* Seven of the ten equations of every group are those of the wage equations ... *)
Theorem C52_equations_partial r1 r4 rt nk sd w s e g b : (g < nk)%nat ->
  In e [1; 2; 4; 5; 6; 7; 8]%nat -> system_levels r1 r4 rt nk sd w = Ok s ->
  XXb s b (e * nk + g) =
  let '(t1, t2) := nth e [(0,0);(1,1);(2,2);(3,3);(0,1);(0,2);(0,3);(1,2);(1,3);(2,3)]%nat (0,0)%nat in
  implied r1 r4 rt (fun k => b (k * nk + g)%nat) t1 t2.
Proof. exact (equations_right r1 r4 rt nk sd w s e g b). Qed.
Print Assumptions C52_equations_partial.

(* ... and the other three differ by these multiples of the variance of nu_2. *)
Theorem C52_equations_refuted r1 r4 rt nk sd w s g b : (g < nk)%nat -> system_levels r1 r4 rt nk sd w = Ok s ->
  let v := fun k => b (k * nk + g)%nat in
  XXb s b (0 * nk + g) = implied r1 r4 rt v 0 0 + (rt ^ 2 * r4 - r1 ^ 2) * v 2%nat /\
  XXb s b (3 * nk + g) = implied r1 r4 rt v 3 3 + (r4 ^ 2 + rt ^ 2 - (r4 * rt) ^ 2) * v 2%nat /\
  XXb s b (9 * nk + g) = implied r1 r4 rt v 2 3 - rt ^ 2 * r4 * v 2%nat.
Proof. exact (equations_wrong r1 r4 rt nk sd w s g b). Qed.
Print Assumptions C52_equations_refuted.

(* So the true rhos never fit: whatever variances are tried, the reported distance
   is positive on data that satisfy the model exactly. *)
Theorem C52_true_rho_refuted r1 r4 rt nk l w s b g : uncorrelated_parts l -> (g < nk)%nat -> 0 < true_var l 2 g ->
  r1 <> 1 -> r4 <> 0 -> rt <> 0 ->
  system_levels r1 r4 rt nk (map (observed r1 r4 rt) l) w = Ok s -> (forall r, (r < srows s)%nat -> 0 < sw s r) ->
  0 < eps_sq s b.
Proof. exact (never_exact r1 r4 rt nk l w s b g). Qed.
Print Assumptions C52_true_rho_refuted.

(* Without persistence the variances are recovered exactly. *)
Theorem C52_no_persistence_partial quadprog nk l o : qp_solver quadprog -> uncorrelated_parts l -> all_groups nk l ->
  var_stayers quadprog 0 0 0 nk (map (observed 0 0 0) l) None false = Ok (Some o) ->
  o_eps_sq o = 0 /\ forall g, (g < nk)%nat ->
    o_BE_sd o g ^ 2 = true_var l 0 g /\ forall t, (t < 4)%nat -> o_nu_sd o t g ^ 2 = true_var l (S t) g.
Proof. exact (no_persistence quadprog nk l o). Qed.
Print Assumptions C52_no_persistence_partial.

(* The reported standard deviations are the square roots of the nonnegative
   coefficients with the smallest weighted squared residuals. *)
Theorem C52_minimises quadprog r1 r4 rt nk sd w o : qp_solver quadprog ->
  var_stayers quadprog r1 r4 rt nk sd w false = Ok (Some o) ->
  exists s, system_levels r1 r4 rt nk sd w = Ok s /\ o_eps_sq o = eps_sq s (o_beta o) /\
    nonneg (5 * nk) (o_beta o) /\
    (forall b, nonneg (5 * nk) b -> o_eps_sq o <= eps_sq s b) /\
    (forall g, (g < nk)%nat -> o_BE_sd o g ^ 2 = o_beta o g) /\
    (forall t g, (t < 4)%nat -> (g < nk)%nat -> o_nu_sd o t g ^ 2 = o_beta o ((t + 1) * nk + g)%nat).
Proof. exact (fit_minimises quadprog r1 r4 rt nk sd w o). Qed.
Print Assumptions C52_minimises.

(* The equations of a group are weighted by its number of stayers when all groups
   have equally many, and in general they are not. *)
Theorem C52_weights_partial r1 r4 rt nk sd s e g n : (g < nk)%nat -> (e < 10)%nat ->
  (forall k, (k < nk)%nat -> length (filter (fun r => (dg r =? k)%nat) sd) = n) ->
  system_levels r1 r4 rt nk sd None = Ok s ->
  sw s (e * nk + g)%nat = INR (length (filter (fun r => (dg r =? g)%nat) sd)).
Proof. exact (weights_equal r1 r4 rt nk sd s e g n). Qed.
Print Assumptions C52_weights_partial.

Theorem C52_weights_refuted : exists nk sd e g, (g < nk)%nat /\ (e < 10)%nat /\
  (forall k, (k < nk)%nat -> filter (fun r => (dg r =? k)%nat) sd <> []) /\
  forall r1 r4 rt s, system_levels r1 r4 rt nk sd None = Ok s ->
  sw s (e * nk + g)%nat <> INR (length (filter (fun r => (dg r =? g)%nat) sd)).
Proof. exact weights_wrong. Qed.
Print Assumptions C52_weights_refuted.

(* In differences only eight firm types are accepted, and then the variance of nu_1 of
   the first two is reported as zero whatever the data. *)
Theorem C52_differences_refuted quadprog r1 r4 rt nk sd w : nk <> 8%nat ->
  var_stayers quadprog r1 r4 rt nk sd w true = Err ValueError.
Proof. exact (diff_refused quadprog r1 r4 rt nk sd w). Qed.
Print Assumptions C52_differences_refuted.

Theorem C52_differences_zero quadprog r1 r4 rt sd w o : var_stayers quadprog r1 r4 rt 8 sd w true = Ok (Some o) ->
  o_nu_sd o 0 0 = 0 /\ o_nu_sd o 0 1 = 0.
Proof. exact (diff_zero quadprog r1 r4 rt sd w o). Qed.
Print Assumptions C52_differences_zero.

(* The left-hand sides of the system in differences are the covariances of the wage
   changes from one period to the next, within the group. *)
Theorem C52_differences_moments r1 r4 rt sd s i j g : (i < 3)%nat -> (j < 3)%nat -> (g < 8)%nat ->
  system_diff r1 r4 rt 8 sd = Ok s ->
  sY s ((i * 3 + j) * 8 + g)%nat =
  pcov (fun r => dy r (S i) - dy r i) (fun r => dy r (S j) - dy r j) (filter (fun r => (dg r =? g)%nat) sd).
Proof. exact (diff_moments r1 r4 rt sd s i j g). Qed.
Print Assumptions C52_differences_moments.

Example C52_case : uncorrelated_parts ex_l /\ all_groups 1 ex_l /\ true_var ex_l 2 0 = 1 /\
  qp_solver (one_candidate ex_beta) /\
  exists o, var_stayers (one_candidate ex_beta) 0 0 0 1 (map (observed 0 0 0) ex_l) None false = Ok (Some o).
Proof. exact (conj ex_unc (conj ex_groups (conj ex_var2 (conj (one_candidate_ok _) ex_returns)))). Qed.
