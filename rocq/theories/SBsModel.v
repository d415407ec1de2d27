(* Model of pytwoway/simbs.py: the class SimBS, up to the cleaning of the simulated
   data, which is bipartitepandas' (168-178).

   The generator is a parameter: the numbers of matches drawn at first, those drawn
   later for additional firms and workers, and standard normal draws (rng.normal(loc,
   scale) is loc + scale * z).  A quotient by 0 (rho = 1 or -1, a standard deviation of
   0), which gives inf or nan in numpy, is not modelled: theorems exclude it. *)
From Verif Require Import Base UtilModel.
Local Open Scope res_scope.
Local Open Scope R_scope.

(* sim_bs_params: sigma_lambda_sq, sigma_mu_sq, sigma_wages, rho *)
Record sbs : Type := mksbs { lambda_sq : R; mu_sq : R; sigma_wages : R; rho : R }.
Definition sigma_lambda (s : sbs) : R := sqrt (lambda_sq s).
Definition sigma_mu (s : sbs) : R := sqrt (mu_sq s).
(* the expression of lines 69 and 162 *)
Definition quotient (s : sbs) : R :=
  (sigma_lambda s ^ 2 + sigma_mu s ^ 2 - 2 * rho s * sigma_lambda s * sigma_mu s) / (1 - rho s ^ 2).

(* __init__, 60-75 *)
Definition sbs_init (s : sbs) : res unit :=
  if Rlt_dec (sigma_wages s) (sqrt (quotient s)) then Err ValueError else Ok tt.

Definition nsum (l : list nat) : nat := fold_right Nat.add 0%nat l.

(* The generator. *)
Record sgen : Type := mksgen {
  g_workers : list nat; g_firms : list nat;          (* 96-97 *)
  g_firm : nat -> nat; g_worker : nat -> nat;        (* 105, 109 *)
  z_lambda : nat -> R; z_mu : nat -> R; z_chi : nat -> R; z_eps : nat -> R
}.

(* The while loop, 100-112 *)
Fixpoint equalize (fuel : nat) (g : sgen) (t : nat) (ws fs : list nat) : res (list nat * list nat) :=
  match fuel with
  | O => Err OutOfFuel
  | S n =>
      if (nsum ws =? nsum fs)%nat then Ok (ws, fs)
      else if (nsum fs <? nsum ws)%nat
      then equalize n g (S t) ws (fs ++ [Nat.max (g_firm g t) 2])
      else equalize n g (S t) (ws ++ [Nat.max (g_worker g t) 2]) fs
  end.
(* _simulate_workers_firms, 77-114 *)
Definition workers_firms (fuel : nat) (g : sgen) : res (list nat * list nat) :=
  equalize fuel g 0 (map (fun n => Nat.max n 2) (g_workers g)) (map (fun n => Nat.max n 2) (g_firms g)).

(* np.repeat(np.arange(len(ns)), ns) *)
Definition repeats (ns : list nat) : list nat := flat_map (fun kn => repeat (fst kn) (snd kn)) (enumerate ns).

(* j[ix] = v *)
Definition assign (ix : list nat) (v : nat) (j : list nat) : list nat :=
  map (fun r => if existsb (Nat.eqb r) ix then v else nth r j 0%nat) (range (length j)).
(* 150-156 *)
Definition match_loop (idx : list nat) (fs : list nat) (n : nat) : list nat :=
  fst (fold_left (fun st fn =>
         let '(j, at_) := st in
         (assign (firstn (snd fn) (skipn at_ idx)) (fst fn) j, (at_ + snd fn)%nat))
       (enumerate fs) (repeat 0%nat n, 0%nat)).

(* A row of the simulated data: i, j, y, lambda_i, mu_j. *)
Record brow : Type := mkbrow { b_i : nat; b_j : nat; b_y : R; b_lambda : R; b_mu : R }.

Section Sim.
Variable argsort : list R -> list nat.
Variable s : sbs.
Variable g : sgen.

(* 160-161 *)
Definition coef_a : R := (sigma_lambda s - rho s * sigma_mu s) / (sigma_lambda s * (1 - rho s ^ 2)).
Definition coef_b : R := (sigma_mu s - rho s * sigma_lambda s) / (sigma_mu s * (1 - rho s ^ 2)).
Definition sigma_eps : R := sqrt (sigma_wages s ^ 2 - quotient s).
(* 163, with z a standard normal draw *)
Definition wage (l m z : R) : R := coef_a * l + coef_b * m + sigma_eps * z.

(* simulate, 116-166 *)
Definition sbs_simulate (fuel : nat) : res (list brow) :=
  ' (ws, fs) <- workers_firms fuel g ;;
  let lambda := map (fun i => sigma_lambda s * z_lambda g i) (range (length ws)) in
  let mu := map (fun f => sigma_mu s * z_mu g f) (range (length fs)) in
  let order := argsort mu in
  let fs := map (fun f => nth f fs 0%nat) order in
  let mu := map (fun f => nth f mu 0) order in
  let is_ := repeats ws in
  let chi := map (fun ri => nth (snd ri) lambda 0 * rho s * sigma_mu s / sigma_lambda s
                            + sigma_mu s * sqrt (1 - rho s ^ 2) * z_chi g (fst ri)) (enumerate is_) in
  let js := match_loop (argsort chi) fs (length is_) in
  Ok (map (fun rij =>
        let '(r, (i, j)) := rij in
        let l := nth i lambda 0 in
        let m := nth j mu 0 in
        mkbrow i j (wage l m (z_eps g r)) (coef_a * l) (coef_b * m))
      (enumerate (combine is_ js))).
End Sim.
