(* Model of pytwoway/montecarlo.py: MonteCarlo._monte_carlo_interior and monte_carlo.

   bipartitepandas (simulating, cleaning, clustering) and the estimators are parameters.  A
   generator is a mutable object: every call that uses it returns its new state. *)
From Coq Require Import String.
From Verif Require Import Base.
Local Open Scope string_scope.
Local Open Scope nat_scope.
Local Open Scope list_scope.
Local Open Scope res_scope.

(* d[k] *)
Fixpoint lookup {V} (k : string) (d : list (string * V)) : res V :=
  match d with
  | [] => Err KeyError
  | (k', v) :: d => if String.eqb k k' then Ok v else lookup k d
  end.

(* A simulated observation: what is kept (line 119) and its true effects. *)
Record brow : Type := mkbrow { b_i : nat; b_j : nat; b_y : R; b_t : nat }.
Record simrow : Type := mksimrow { m_obs : brow; m_psi : R; m_alpha : R }.

(* np.var(ddof=0) and np.cov(ddof=0)[0, 1], 115-116 *)
Definition mean (l : list R) : R := (rsum l / INR (List.length l))%R.
Definition np_cov (x y : list R) : R :=
  (rsum (map2 (fun a b => (a - mean x) * (b - mean y)) x y) / INR (List.length x))%R.
Definition np_var (x : list R) : R := np_cov x x.

(* MonteCarlo.hist, 292-317: the differences from the truth of the estimators plotted (the list
   on) and the shared range of their histograms.  np.sort (292-293) changes only the order,
   which plays no part here.  np.min and np.max of no simulations raise; with nothing plotted
   the range is infinite, not modelled (NotImplementedError). *)
Definition np_min (x : list R) : res R :=
  match x with [] => Err ValueError | a :: x => Ok (fold_left Rmin x a) end.
Definition np_max (x : list R) : res R :=
  match x with [] => Err ValueError | a :: x => Ok (fold_left Rmax x a) end.
Definition widen_min (m : R) : R := if Rle_dec m 0 then (m * (105 / 100))%R else (m * (95 / 100))%R.
Definition widen_max (m : R) : R := if Rle_dec m 0 then (m * (95 / 100))%R else (m * (105 / 100))%R.
Definition differences (what : string) (on : list string) (res : list (string * list R))
  : Base.res (list (list R)) :=
  true_ <- lookup (what ++ "_true") res ;;
  traverse (fun e => x <- lookup (what ++ "_" ++ e) res ;; Ok (map2 Rminus x true_)) on.
Definition plt_range (diffs : list (list R)) : Base.res (R * R) :=
  mins <- traverse np_min diffs ;;
  maxs <- traverse np_max diffs ;;
  match mins, maxs with
  | a :: mins, b :: maxs => Ok (widen_min (fold_left Rmin mins a), widen_max (fold_left Rmax maxs b))
  | _, _ => Err NotImplementedError
  end.

Section MC.
Variable G : Type.                                       (* states of a generator *)
Variable C : Type.                                       (* clean data *)
Variable sim : G -> list simrow * G.                     (* sim_network.simulate, 112 *)
Variable move_to_worker : bool.
Variable moves : list brow -> list brow.                 (* line 122 *)
Variable clean : list brow -> res C.                     (* line 125 *)
(* FEEstimator.fit: the dictionary res; CREEstimator.fit: tot_var and tot_cov (128-140) *)
Variable fe : C -> G -> res (list (string * R) * G).
Variable cluster : C -> G -> res (C * G).
Variable cre : C -> G -> res ((R * R) * G).
Variable estimate_bs : bool.
Variable bs_clean : C -> res C.                          (* 158-167 *)
Variable bs : bool -> C -> res (R * R).                  (* var(mu), cov(lambda, mu), 173-187 *)

(* montecarlo.py:95-189 *)
Definition interior (g : G) : res (list (string * R) * G) :=
  let (d, g) := sim g in
  let var_psi := np_var (map m_psi d) in
  let cov_psi_alpha := np_cov (map m_psi d) (map m_alpha d) in
  let data := map m_obs d in
  let data := if move_to_worker then moves data else data in
  c <- clean data ;;
  ' (fe_res, g) <- fe c g ;;
  ' (c, g) <- cluster c g ;;
  ' (cre_res, g) <- cre c g ;;
  v1 <- lookup "var(psi)_fe" fe_res ;;
  v2 <- lookup "var(psi)_ho" fe_res ;;
  v3 <- lookup "var(psi)_he" fe_res ;;
  w1 <- lookup "cov(psi, alpha)_fe" fe_res ;;
  w2 <- lookup "cov(psi, alpha)_ho" fe_res ;;
  w3 <- lookup "cov(psi, alpha)_he" fe_res ;;
  let out := [("var(psi)_true", var_psi); ("var(psi)_fe", v1); ("var(psi)_ho", v2); ("var(psi)_he", v3);
              ("var(psi)_cre", fst cre_res);
              ("cov(psi, alpha)_true", cov_psi_alpha); ("cov(psi, alpha)_fe", w1); ("cov(psi, alpha)_ho", w2);
              ("cov(psi, alpha)_he", w3); ("cov(psi, alpha)_cre", snd cre_res)] in
  if estimate_bs then
    c <- bs_clean c ;;
    b1 <- bs false c ;;
    b2 <- bs true c ;;
    Ok (out ++ [("var(psi)_bs1", fst b1); ("cov(psi, alpha)_bs1", snd b1);
                ("var(psi)_bs2", fst b2); ("cov(psi, alpha)_bs2", snd b2)], g)
  else Ok (out, g).

(* 212-213: one core, one generator for all simulations *)
Fixpoint in_turn (n : nat) (g : G) : res (list (list (string * R))) :=
  match n with
  | 0 => Ok []
  | S n => ' (r, g) <- interior g ;; rs <- in_turn n g ;; Ok (r :: rs)
  end.
(* 205-210: the i-th simulation has the generator of the i-th spawned seed; imap keeps the
   order *)
Variable spawned : nat -> G.
Definition in_parallel (n : nat) : res (list (list (string * R))) :=
  traverse (fun i => ' (r, _) <- interior (spawned i) ;; Ok r) (range n).

(* 216-223 *)
Definition estimators : list string :=
  ["var(psi)_true"; "var(psi)_fe"; "var(psi)_ho"; "var(psi)_he"; "var(psi)_cre";
   "cov(psi, alpha)_true"; "cov(psi, alpha)_fe"; "cov(psi, alpha)_ho"; "cov(psi, alpha)_he"; "cov(psi, alpha)_cre"]
  ++ (if estimate_bs then ["var(psi)_bs1"; "var(psi)_bs2"; "cov(psi, alpha)_bs1"; "cov(psi, alpha)_bs2"] else []).

(* x[i] = v *)
Definition set_at (i : nat) (v : R) (x : list R) : list R :=
  map (fun iv => if Nat.eqb (fst iv) i then v else snd iv) (enumerate x).
(* res[estimator][i] = v *)
Fixpoint set_entry (e : string) (i : nat) (v : R) (d : list (string * list R)) : list (string * list R) :=
  match d with
  | [] => []
  | (e', x) :: d => if String.eqb e e' then (e', set_at i v x) :: d else (e', x) :: set_entry e i v d
  end.

(* montecarlo.py:191-230: self.res *)
Definition monte_carlo (N ncore : nat) (rng : G) : res (list (string * list R)) :=
  all_res <- (if 1 <? ncore then in_parallel N else in_turn N rng) ;;
  let res := map (fun e => (e, repeat 0%R N)) estimators in
  for_each (enumerate all_res)
    (fun ir res => for_each estimators
       (fun e res => v <- lookup e (snd ir) ;; Ok (set_entry e (fst ir) v res)) res) res.
End MC.
