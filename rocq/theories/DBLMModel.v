(* Model of the class DynamicBLMModel of pytwoway/blm_dynamic.py for a model
   without control variables: parameters, ordering of types, likelihood,
   updates, fit_movers and fit_stayers. *)
From Verif Require Import Base UtilModel ConsModel BLMModel BLMEMModel BLMFitModel.
Local Open Scope res_scope.
Local Open Scope R_scope.

(* all_periods, blm_dynamic.py:1130.  The periods whose arrays have shape
   (nl, nk), and the 'b' periods, whose arrays have shape (nk,) (1191-1205). *)
Inductive aper : Type := T12 | T43 | T2ma | T3ma | T2s | T3s.
Inductive bper : Type := T2mb | T3mb.
Inductive dper : Type := PA (a : aper) | PB (b : bper).

Definition aper_eqb (a b : aper) : bool :=
  match a, b with
  | T12, T12 | T43, T43 | T2ma, T2ma | T3ma, T3ma | T2s, T2s | T3s, T3s => true
  | _, _ => false
  end.
Definition bper_eqb (a b : bper) : bool :=
  match a, b with T2mb, T2mb | T3mb, T3mb => true | _, _ => false end.

(* The attributes A, S (dictionaries over periods), pk1, pk0, NNm, NNs and the
   four rhos of a model. *)
Record dpar : Type := mkdpar {
  dA : aper -> mat; dAb : bper -> nat -> R;
  dS : aper -> mat; dSb : bper -> nat -> R;
  dpk1 : mat; dpk0 : mat; dNNm : mat; dNNs : nat -> R;
  R12 : R; R43 : R; R32m : R; R32s : R
}.

(* One row of the data: four wages, firm types of the first and the last period
   (1936-1941). *)
Record dobs : Type := mkdobs {
  dy1 : R; dy2 : R; dy3 : R; dy4 : R; dg1 : nat; dg4 : nat
}.

(* periods_movers (1131-1138) and periods_update_stayers (1140) *)
Definition periods_movers (endogeneity state_dependence : bool) : list dper :=
  [PA T12; PA T43; PA T2ma; PA T3ma]
  ++ (if endogeneity then [PB T2mb] else []) ++ (if state_dependence then [PB T3mb] else []).
Definition periods_update_stayers : list dper := [PA T2s; PA T3s].

(* ------------------------------------------------------------------ *)
(* Ordering of types *)
(* 1506-1513 *)
Definition dsort_workers (o : list nat) (p : dpar) : dpar :=
  mkdpar (fun t => take_rows o (dA p t)) (dAb p) (fun t => take_rows o (dS p t)) (dSb p)
    (take_cols o (dpk1 p)) (take_cols o (dpk0 p)) (dNNm p) (dNNs p)
    (R12 p) (R43 p) (R32m p) (R32s p).
(* 1534-1550 *)
Definition dsort_firms (nk : nat) (o : list nat) (p : dpar) : dpar :=
  mkdpar (fun t => take_cols o (dA p t)) (fun t => take_vec o (dAb p t))
    (fun t => take_cols o (dS p t)) (fun t => take_vec o (dSb p t))
    (take_rows (pk1_order_2 o nk) (take_rows (pk1_order_1 o nk) (dpk1 p)))
    (take_rows o (dpk0 p)) (take_cols o (take_rows o (dNNm p))) (take_vec o (dNNs p))
    (R12 p) (R43 p) (R32m p) (R32s p).

Section DSort.
Variable argsort : list R -> list nat.
Variables (pp : period) (nl nk : nat).

(* _min_firm_type, 1284-1305 *)
Definition dmin_firm_type (p : dpar) : nat :=
  nth 0 (argsort (col_means nl nk (A_mean pp (dA p T12) (dA p T43)))) 0%nat.

(* _sort_parameters, 1462-1556, with every argument given (arguments that are
   None are neither sorted nor returned) *)
Definition dsort_parameters (sort_firm_types reverse : bool) (p : dpar) : dpar :=
  let Am := A_mean pp (dA p T12) (dA p T43) in
  let worker_type_order := argsort (row_means nl nk Am) in
  let worker_type_order := if reverse then rev worker_type_order else worker_type_order in
  let p := if out_of_order worker_type_order nl
           then dsort_workers worker_type_order p else p in
  if sort_firm_types
  then let firm_type_order := argsort (col_means nl nk Am) in
       let firm_type_order := if reverse then rev firm_type_order else firm_type_order in
       if out_of_order firm_type_order nk then dsort_firms nk firm_type_order p else p
  else p.
End DSort.

(* ------------------------------------------------------------------ *)
(* The E-step of the movers, 2097-2120: one row, worker type l, at the firm types
   (g1, g2) of the loop *)
Definition mover_lp (nk : nat) (p : dpar) (o : dobs) (l g1 g2 : nat) : res R :=
  lp1 <- lognormpdf (dy1 o - R12 p * (dy2 o - dA p T2ma l g1)) (dA p T12 l g1) None
           (Some (dS p T12 l g1 ^ 2 + (R12 p * dS p T2ma l g1) ^ 2)) ;;
  lp2 <- lognormpdf (dy2 o) (dA p T2ma l g1 + dAb p T2mb g2) None
           (Some (dS p T2ma l g1 ^ 2 + dSb p T2mb g2 ^ 2)) ;;
  lp3 <- lognormpdf (dy3 o - R32m p * (dy2 o - dA p T2ma l g1 - dAb p T2mb g2))
           (dA p T3ma l g2 + dAb p T3mb g1) None
           (Some (dS p T3ma l g2 ^ 2 + dSb p T3mb g1 ^ 2
                  + R32m p ^ 2 * (dS p T2ma l g1 ^ 2 + dSb p T2mb g2 ^ 2))) ;;
  lp4 <- lognormpdf (dy4 o - R43 p * (dy3 o - dA p T3ma l g2)) (dA p T43 l g2) None
           (Some (dS p T43 l g2 ^ 2 + (R43 p * dS p T3ma l g2) ^ 2)) ;;
  Ok (ln (dpk1 p (dg1 o + nk * dg4 o)%nat l) + lp1 + lp2 + lp3 + lp4).

(* lp[I, l] = v for the rows selected by the mask I *)
Definition set_col (sel : dobs -> bool) (l : nat) (v : dobs -> res R)
    (data : list dobs) (lp : list (list R)) : res (list (list R)) :=
  traverse (fun oi => if sel (fst oi)
                      then x <- v (fst oi) ;; Ok (upd l (fun _ => x) (snd oi))
                      else Ok (snd oi)) (combine data lp).

Definition zeros (nl : nat) (data : list dobs) : list (list R) :=
  map (fun _ => map (fun _ => 0) (range nl)) data.

(* 2092-2120.  lp starts from zeros (1988) in every iteration here; in the code
   it keeps the values of the iteration before, which are all overwritten when
   the firm types are in range. *)
Definition dlp_movers (nl nk : nat) (p : dpar) (data : list dobs) : res (list (list R)) :=
  for_each (range nk) (fun g1 =>
    for_each (range nk) (fun g2 =>
      for_each (range nl) (fun l =>
        set_col (fun o => (dg1 o =? g1) && (dg4 o =? g2))%nat l
          (fun o => mover_lp nk p o l g1 g2) data))) (zeros nl data).

(* The stayers: lp_stable (3022-3037) and the part recomputed in every iteration
   (3082-3098); the sum (3102) *)
Definition stayer_stable (p : dpar) (o : dobs) (l g1 : nat) : res R :=
  lp1 <- lognormpdf (dy1 o - R12 p * (dy2 o - dA p T2ma l g1)) (dA p T12 l g1) None
           (Some (dS p T12 l g1 ^ 2 + (R12 p * dS p T2ma l g1) ^ 2)) ;;
  lp4 <- lognormpdf (dy4 o - R43 p * (dy3 o - dA p T3ma l g1)) (dA p T43 l g1) None
           (Some (dS p T43 l g1 ^ 2 + (R43 p * dS p T3ma l g1) ^ 2)) ;;
  Ok (lp1 + lp4).
Definition stayer_lp (p : dpar) (o : dobs) (l g1 : nat) : res R :=
  lp2 <- lognormpdf (dy2 o) (dA p T2s l g1) (Some (dS p T2s l g1)) None ;;
  lp3 <- lognormpdf (dy3 o - R32s p * (dy2 o - dA p T2s l g1)) (dA p T3s l g1) None
           (Some (dS p T3s l g1 ^ 2 + (R32s p * dS p T2s l g1) ^ 2)) ;;
  Ok (ln (dpk0 p (dg1 o) l) + lp2 + lp3).
Definition dlp_stable (nl nk : nat) (p : dpar) (data : list dobs) : res (list (list R)) :=
  for_each (range nk) (fun g1 =>
    for_each (range nl) (fun l =>
      set_col (fun o => dg1 o =? g1)%nat l (fun o => stayer_stable p o l g1) data))
    (zeros nl data).
Definition dlp_stayers (nl nk : nat) (p : dpar) (stable : list (list R)) (data : list dobs)
  : res (list (list R)) :=
  lp <- for_each (range nk) (fun g1 =>
          for_each (range nl) (fun l =>
            set_col (fun o => dg1 o =? g1)%nat l (fun o => stayer_lp p o l g1) data))
          (zeros nl data) ;;
  Ok (map2 (map2 Rplus) lp stable).

(* ------------------------------------------------------------------ *)
(* GG12.T @ (qi + d_prior - 1), rows normalised; nan raises: 2164-2172, and
   3122-3130 with GG1.  csc_matrix raises for a firm type out of range; theorems
   assume they are in range. *)
Definition dpk_update (n nl : nat) (d_prior : R) (keys : list nat) (qi : list (list R))
  : res mat :=
  let pk := norm_rows nl (fun k l =>
    rsum (map2 (fun key row => if (key =? k)%nat then nth l row 0 + d_prior - 1 else 0)
               keys qi)) in
  if any_nan n nl pk then Err ValueError else Ok (from_nan pk).

Definition dset_pk1 (pk : mat) (p : dpar) : dpar :=
  mkdpar (dA p) (dAb p) (dS p) (dSb p) pk (dpk0 p) (dNNm p) (dNNs p)
    (R12 p) (R43 p) (R32m p) (R32s p).
Definition dset_pk0 (pk : mat) (p : dpar) : dpar :=
  mkdpar (dA p) (dAb p) (dS p) (dSb p) (dpk1 p) pk (dNNm p) (dNNs p)
    (R12 p) (R43 p) (R32m p) (R32s p).
Definition dset_NNm (NN : mat) (p : dpar) : dpar :=
  mkdpar (dA p) (dAb p) (dS p) (dSb p) (dpk1 p) (dpk0 p) NN (dNNs p)
    (R12 p) (R43 p) (R32m p) (R32s p).
Definition dset_NNs (NN : nat -> R) (p : dpar) : dpar :=
  mkdpar (dA p) (dAb p) (dS p) (dSb p) (dpk1 p) (dpk0 p) (dNNm p) NN
    (R12 p) (R43 p) (R32m p) (R32s p).
Definition dset_A (A : (aper -> mat) * (bper -> nat -> R)) (p : dpar) : dpar :=
  mkdpar (fst A) (snd A) (dS p) (dSb p) (dpk1 p) (dpk0 p) (dNNm p) (dNNs p)
    (R12 p) (R43 p) (R32m p) (R32s p).
Definition dset_S (A : (aper -> mat) * (bper -> nat -> R)) (p : dpar) : dpar :=
  mkdpar (dA p) (dAb p) (fst A) (snd A) (dpk1 p) (dpk0 p) (dNNm p) (dNNs p)
    (R12 p) (R43 p) (R32m p) (R32s p).
Definition dset_rho (a b c d : R) (p : dpar) : dpar :=
  mkdpar (dA p) (dAb p) (dS p) (dSb p) (dpk1 p) (dpk0 p) (dNNm p) (dNNs p) a b c d.

(* ------------------------------------------------------------------ *)
(* Update of rho, 2178-2243: the arrays XX, YY and WW over (l, i) and XwY / XwX.
   (A division by 0 is Coq's; theorems assume XwX <> 0.) *)
Definition long {A} (nl : nat) (f : nat -> list A) : list A := flat_map f (range nl).
Definition wls (nl : nat) (data : list dobs) (qi : list (list R))
    (X Y SS : nat -> dobs -> R) : R :=
  let XX := long nl (fun l => map (X l) data) in
  let YY := long nl (fun l => map (Y l) data) in
  let WW := long nl (fun l => map2 (fun o row => nth l row 0 / SS l o) data qi) in
  let Xw := map2 Rmult XX WW in
  let XwX := rsum (map2 Rmult Xw XX) in
  let XwY := rsum (map2 Rmult Xw YY) in
  XwY / XwX.

Definition new_rho12 (nl : nat) (p : dpar) (data : list dobs) (qi : list (list R)) : R :=
  wls nl data qi
    (fun l o => dy2 o - dA p T2ma l (dg1 o))
    (fun l o => dy1 o - dA p T12 l (dg1 o))
    (fun l o => dS p T12 l (dg1 o) ^ 2 + R12 p ^ 2 * dS p T2ma l (dg1 o) ^ 2).
Definition new_rho43 (nl : nat) (p : dpar) (data : list dobs) (qi : list (list R)) : R :=
  wls nl data qi
    (fun l o => dy3 o - dA p T3ma l (dg4 o))
    (fun l o => dy4 o - dA p T43 l (dg4 o))
    (fun l o => dS p T43 l (dg4 o) ^ 2 + R43 p ^ 2 * dS p T3ma l (dg4 o) ^ 2).
Definition new_rho32m (nl : nat) (p : dpar) (data : list dobs) (qi : list (list R)) : R :=
  wls nl data qi
    (fun l o => dy2 o - (dA p T2ma l (dg1 o) + dAb p T2mb (dg4 o)))
    (fun l o => dy3 o - (dA p T3ma l (dg4 o) + dAb p T3mb (dg1 o)))
    (fun l o => dS p T3ma l (dg4 o) ^ 2 + dSb p T3mb (dg1 o) ^ 2
                + R32m p ^ 2 * (dS p T2ma l (dg1 o) ^ 2 + dSb p T2mb (dg4 o) ^ 2)).
(* 3134-3160 *)
Definition new_rho32s (nl : nat) (p : dpar) (data : list dobs) (qi : list (list R)) : R :=
  wls nl data qi
    (fun l o => dy2 o - dA p T2s l (dg1 o))
    (fun l o => dy3 o - dA p T3s l (dg1 o))
    (fun l o => dS p T3s l (dg1 o) ^ 2 + R32s p ^ 2 * dS p T2s l (dg1 o) ^ 2).

(* ------------------------------------------------------------------ *)
(* The regressions for A and S *)
(* X[r: r + h, c: c + w] = M *)
Definition set_block (r c h w : nat) (M X : mat) : mat :=
  fun i j => if ((r <=? i) && (i <? r + h) && (c <=? j) && (j <? c + w))%nat
             then M (i - r)%nat (j - c)%nat else X i j.
Definition zero_mat : mat := fun _ _ => 0.
Definition scale (a : R) (M : mat) : mat := fun i j => a * M i j.

(* GG1 and GG2, 1968-1969 *)
Definition indicators (g : dobs -> nat) (data : list dobs) : mat :=
  fun i k => match nth_error data i with
             | Some o => if (g o =? k)%nat then 1 else 0
             | None => 0
             end.

(* X of the movers, 2275-2294 *)
Definition X_movers (nk : nat) (endogeneity state_dependence : bool) (p : dpar)
    (data : list dobs) : mat :=
  let ni := length data in
  let GG1 := indicators dg1 data in
  let GG2 := indicators dg4 data in
  let e := if endogeneity then 1%nat else 0%nat in
  let put a b M X := set_block (a * ni) (b * nk) ni nk M X in
  let X := put 0%nat 0%nat GG1 zero_mat in
  let X := put 0%nat 2%nat (scale (- R12 p) GG1) X in
  let X := put 1%nat 2%nat GG1 X in
  let X := if endogeneity then put 1%nat 4%nat GG2 X else X in
  let X := put 2%nat 2%nat (scale (- R32m p) GG1) X in
  let X := put 2%nat 3%nat GG2 X in
  let X := if endogeneity then put 2%nat 4%nat (scale (- R32m p) GG2) X else X in
  let X := if state_dependence then put 2%nat (4 + e)%nat GG1 X else X in
  let X := put 3%nat 1%nat GG2 X in
  put 3%nat 3%nat (scale (- R43 p) GG2) X.

(* X of the stayers, 3206-3209 *)
Definition X_stayers (nk : nat) (p : dpar) (data : list dobs) : mat :=
  let ni := length data in
  let GG1 := indicators dg1 data in
  let put a b M X := set_block (a * ni) (b * nk) ni nk M X in
  let X := put 0%nat 0%nat GG1 zero_mat in
  let X := put 1%nat 0%nat (scale (- R32s p) GG1) X in
  put 1%nat 1%nat GG1 X.

(* X_order, 2297-2300: argsort of X_nk_group + nk * X_nl_group + nl * nk *
   X_np_group *)
Definition X_order (argsort : list R -> list nat) (np nl nk : nat) : list nat :=
  let X_np_group := np_tile (np_repeat (range np) nk) nl in
  let X_nl_group := np_repeat (range nl) (nk * np) in
  let X_nk_group := np_tile (range nk) (nl * np) in
  argsort (map INR (map2 Nat.add (map2 (fun a b => a + nk * b)%nat X_nk_group X_nl_group)
                                 (map (fun b => (nl * nk) * b)%nat X_np_group))).

(* var_l, 2383-2390 and 3268-3273 *)
Definition var_movers (p : dpar) (data : list dobs) (l : nat) : list R :=
  map (fun o => dS p T12 l (dg1 o) ^ 2 + (R12 p * dS p T2ma l (dg1 o)) ^ 2) data
  ++ map (fun o => dS p T2ma l (dg1 o) ^ 2 + dSb p T2mb (dg4 o) ^ 2) data
  ++ map (fun o => dS p T3ma l (dg4 o) ^ 2 + dSb p T3mb (dg1 o) ^ 2
                   + R32m p ^ 2 * (dS p T2ma l (dg1 o) ^ 2 + dSb p T2mb (dg4 o) ^ 2)) data
  ++ map (fun o => dS p T43 l (dg4 o) ^ 2 + (R43 p * dS p T3ma l (dg4 o)) ^ 2) data.
Definition var_stayers (p : dpar) (data : list dobs) (l : nat) : list R :=
  map (fun o => dS p T2s l (dg1 o) ^ 2) data
  ++ map (fun o => dS p T3s l (dg1 o) ^ 2 + (R32s p * dS p T2s l (dg1 o)) ^ 2) data.

(* weights_l = np.tile(qi[:, l], m) / np.sqrt(var_l), 2391 and 3274 *)
Definition weights (m : nat) (qi : list (list R)) (l : nat) (var : list R) : list R :=
  map2 (fun q v => q / sqrt v)
    (flat_map (fun _ => map (fun row => nth l row 0) qi) (range m)) var.

(* Y_l, 2405-2435 and 3288-3300 *)
Definition Y_movers (p : dpar) (data : list dobs) : list R :=
  map (fun o => dy1 o - R12 p * dy2 o) data ++ map dy2 data
  ++ map (fun o => dy3 o - R32m p * dy2 o) data ++ map (fun o => dy4 o - R43 p * dy3 o) data.
Definition Y_stayers (p : dpar) (data : list dobs) : list R :=
  map dy2 data ++ map (fun o => dy3 o - R32s p * dy2 o) data.

(* eps_l_sq, 2737-2773 and 3557-3571 *)
Definition eps_movers (p : dpar) (data : list dobs) (l : nat) : list R :=
  map (fun o => (dy1 o - R12 p * (dy2 o - dA p T2ma l (dg1 o)) - dA p T12 l (dg1 o)) ^ 2) data
  ++ map (fun o => (dy2 o - (dA p T2ma l (dg1 o) + dAb p T2mb (dg4 o))) ^ 2) data
  ++ map (fun o => (dy3 o - R32m p * (dy2 o - (dA p T2ma l (dg1 o) + dAb p T2mb (dg4 o)))
                    - (dA p T3ma l (dg4 o) + dAb p T3mb (dg1 o))) ^ 2) data
  ++ map (fun o => (dy4 o - R43 p * (dy3 o - dA p T3ma l (dg4 o)) - dA p T43 l (dg4 o)) ^ 2) data.
Definition eps_stayers (p : dpar) (data : list dobs) (l : nat) : list R :=
  map (fun o => (dy2 o - dA p T2s l (dg1 o)) ^ 2) data
  ++ map (fun o => (dy3 o - R32s p * (dy2 o - dA p T2s l (dg1 o)) - dA p T3s l (dg1 o)) ^ 2) data.

(* XwX, 2376-2402 and 2439: for each worker type one diagonal block
   X' diag(weights_l) X (nr rows, w columns) *)
Definition XwX (nr w nl : nat) (X : mat) (wts : nat -> list R) (d : R) : mat :=
  let M := fold_left (fun M l =>
             set_block (l * w) (l * w) w w
               (fun a b => sumn nr (fun i => nth i (wts l) 0 * X i a * X i b)) M)
             (range nl) zero_mat in
  if Rlt_dec 1 d then fun i j => M i j + (d - 1) * (if (i =? j)%nat then 1 else 0) else M.
(* XwY (2436) and XwS (2777): v[l_index: r_index] = Xw_l @ y_l *)
Definition Xwv (nr w nl : nat) (X : mat) (wts y : nat -> list R) : nat -> R :=
  fold_left (fun v l j =>
    if ((l * w <=? j) && (j <? l * w + w))%nat
    then sumn nr (fun i => nth i (wts l) 0 * X i (j - l * w)%nat * nth i (y l) 0)
    else v j) (range nl) (fun _ => 0).

(* Storing the solution, 2471-2476, 2794-2799, 3334-3336: np.split into one part
   per period; f is the identity for A and the square root for S *)
Definition store (nl nk : nat) (f : R -> R) (periods : list dper) (x : list R)
    (A : (aper -> mat) * (bper -> nat -> R)) : (aper -> mat) * (bper -> nat -> R) :=
  fold_left (fun A ip =>
    let i := fst ip in
    match snd ip with
    | PA a => (fun t => if aper_eqb a t
                        then fun l k => f (nth (i * (nl * nk) + (l * nk + k)) x 0)
                        else fst A t, snd A)
    | PB b => (fst A, fun t => if bper_eqb b t
                               then fun k => f (nth (i * (nl * nk) + k) x 0)
                               else snd A t)
    end) (enumerate periods) A.

(* ------------------------------------------------------------------ *)
(* The parameters read by fit_movers and fit_stayers *)
Record dsettings : Type := mkdset {
  endogeneity : bool; state_dependence : bool;
  up_rho12 : bool; up_rho43 : bool; up_rho32m : bool; up_rho32s : bool;
  up_a : bool; up_s : bool; up_pk1 : bool;
  up_a_stayers : bool; up_s_stayers : bool; up_pk0 : bool;
  dn_iters : nat; dn_iters_stayers : nat; dthreshold : R;
  dd_prior : R; dd_prior_stayers : R; d_X_diag : R; d_X_diag_stayers : R;
  ds_lower_bound : R;
  dcons_a : list cobj; dcons_a_all : list cobj;
  dcons_s : list cobj; dcons_s_all : list cobj
}.

Definition is_b (p : dper) : bool := match p with PB _ => true | PA _ => false end.

(* _gen_constraints, 1307-1355, without control variables: cons_a and cons_s *)
Definition dgen_constraints (nl nk : nat) (c : dsettings) (for_movers : bool) : res (qp * qp) :=
  let pm := periods_movers (endogeneity c) (state_dependence c) in
  let nt := if for_movers then length pm else length periods_update_stayers in
  let nnt_b := if for_movers && (endogeneity c || state_dependence c)
               then map fst (filter (fun ip => is_b (snd ip)) (enumerate pm)) else [] in
  let cons_b := if (0 <? length nnt_b)%nat
                then [CNoWorkerTypeInteraction (Some nnt_b) nt] else [] in
  qs <- add_constraints [CBoundedBelow (ds_lower_bound c) nt] (qp_init nl nk) ;;
  qa <- add_constraints cons_b (qp_init nl nk) ;;
  qs <- add_constraints cons_b qs ;;
  qa <- add_constraints (dcons_a c) qa ;;
  qa <- add_constraints (dcons_a_all c) qa ;;
  qs <- add_constraints (dcons_s c) qs ;;
  qs <- add_constraints (dcons_s_all c) qs ;;
  Ok (qa, qs).

Section DFit.
Variable argsort : list R -> list nat.
(* qpsolvers.solve_qp: the number of unknowns, P, q and the constraints *)
Variable qp_solver : nat -> mat -> list R -> problem -> qpres.
Variable pp : period.
Variables nl nk : nat.

(* cons.solve(XwX[X_order, :][:, X_order], -v[X_order]) *)
Definition dsolve (np : nat) (M : mat) (v : nat -> R) (s : qp) : qpres :=
  let o := X_order argsort np nl nk in
  qp_solver (length o) (take_cols o (take_rows o M)) (map (fun i => - v i) o)
    (snd (solve false (length o) s)).

(* 2376-2814 *)
Definition update_AS (c : dsettings) (cons : qp * qp) (data : list dobs)
    (qi : list (list R)) (p : dpar) : dpar :=
  let pm := periods_movers (endogeneity c) (state_dependence c) in
  let np := length pm in
  let nr := (4 * length data)%nat in
  let X := X_movers nk (endogeneity c) (state_dependence c) p data in
  let wts := fun l => weights 4 qi l (var_movers p data l) in
  let M := XwX nr (nk * np) nl X wts (d_X_diag c) in
  let pA := if up_a c
            then match dsolve np M (Xwv nr (nk * np) nl X wts (fun _ => Y_movers p data))
                         (fst cons) with
                 | QSol x => dset_A (store nl nk (fun r => r) pm x (dA p, dAb p)) p
                 | _ => p
                 end
            else p in
  if up_s c
  then match dsolve np M (Xwv nr (nk * np) nl X wts (eps_movers pA data)) (snd cons) with
       | QSol x => dset_S (store nl nk sqrt pm x (dS p, dSb p)) pA
       | _ => pA
       end
  else pA.

(* 3262-3610 *)
Definition update_AS_stayers (c : dsettings) (cons : qp * qp) (data : list dobs)
    (qi : list (list R)) (p : dpar) : dpar :=
  let pm := periods_update_stayers in
  let np := length pm in
  let nr := (2 * length data)%nat in
  let X := X_stayers nk p data in
  let wts := fun l => weights 2 qi l (var_stayers p data l) in
  let M := XwX nr (nk * np) nl X wts (d_X_diag_stayers c) in
  let pA := if up_a_stayers c
            then match dsolve np M (Xwv nr (nk * np) nl X wts (fun _ => Y_stayers p data))
                         (fst cons) with
                 | QSol x => dset_A (store nl nk (fun r => r) pm x (dA p, dAb p)) p
                 | _ => p
                 end
            else p in
  if up_s_stayers c
  then match dsolve np M (Xwv nr (nk * np) nl X wts (eps_stayers pA data)) (snd cons) with
       | QSol x => dset_S (store nl nk sqrt pm x (dS p, dSb p)) pA
       | _ => pA
       end
  else pA.

(* 2178-2243 *)
Definition update_rho (c : dsettings) (data : list dobs) (qi : list (list R)) (p : dpar) : dpar :=
  dset_rho (if up_rho12 c then new_rho12 nl p data qi else R12 p)
    (if up_rho43 c then new_rho43 nl p data qi else R43 p)
    (if up_rho32m c then new_rho32m nl p data qi else R32m p) (R32s p) p.

(* The updates of an iteration, 2162-2814.  The constraints are generated anew
   after the first iteration if A is updated (2459); without control variables
   they do not depend on the lowest firm type. *)
Definition dem_update (c : dsettings) (iter : nat) (cons : qp * qp) (data : list dobs)
    (qi : list (list R)) (p : dpar) : res (dpar * (qp * qp)) :=
  p <- (if up_pk1 c
        then pk <- dpk_update (nk * nk) nl (dd_prior c)
                     (map (fun o => (dg1 o + nk * dg4 o)%nat) data) qi ;; Ok (dset_pk1 pk p)
        else Ok p) ;;
  if (up_rho12 c || up_rho43 c || up_rho32m c) && (iter mod 2 =? 1)%nat
  then Ok (update_rho c data qi p, cons)
  else if up_a c || up_s c
  then cons <- (if up_a c && (0 <? iter)%nat then dgen_constraints nl nk c true else Ok cons) ;;
       Ok (update_AS c cons data qi p, cons)
  else Ok (p, cons).

(* 2122-2133 *)
Definition diter_lik (c : dsettings) (iter : nat) (p : dpar) (m : R) : R :=
  if (0 <? iter)%nat && up_pk1 c
  then m + lik_prior (dd_prior c) (nk * nk) nl (dpk1 p) else m.

(* The loop, 2016-2880, with force_min_firm_type = False and return_qi = False *)
Fixpoint dmovers_loop (n : nat) (c : dsettings) (data : list dobs) (iter : nat)
    (cons : qp * qp) (p : dpar) (prev : option R) (prev_min : nat)
    (lik : option R) (liks : list R) : res (dpar * option R * list R) :=
  match n with
  | O => Ok (p, lik, liks)
  | S n' =>
      lp <- dlp_movers nl nk p data ;;
      m <- mean_lse lp ;;
      qi <- posteriors lp ;;
      let lik1 := diter_lik c iter p m in
      let liks := liks ++ [lik1] in
      let min := dmin_firm_type argsort pp nl nk p in
      if converged (dthreshold c) lik1 prev && (min =? prev_min)%nat
      then Ok (p, Some lik1, liks)
      else
        ' (p, cons) <- dem_update c iter cons data qi p ;;
        dmovers_loop n' c data (S iter) cons p (Some lik1) min (Some lik1) liks
  end.

(* NNm, 2904 *)
Definition dmover_counts (data : list dobs) : mat :=
  fun a b => INR (length (filter (fun o => (dg1 o =? a) && (dg4 o =? b))%nat data)).

(* fit_movers and _fit_movers, 1856-2904, without force_min_firm_type: the
   parameters, lik1 and liks1 stored in the object *)
Definition dfit_movers (c : dsettings) (compute_NNm : bool) (data : list dobs) (p : dpar)
  : res (dpar * option R * list R) :=
  let p := dsort_parameters argsort pp nl nk false false p in
  cons <- dgen_constraints nl nk c true ;;
  ' (p, lik, liks) <- dmovers_loop (dn_iters c) c data 0 cons p None
                        (dmin_firm_type argsort pp nl nk p) None [] ;;
  let p := dsort_parameters argsort pp nl nk false false p in
  let p := if compute_NNm then dset_NNm (dmover_counts data) p else p in
  Ok (p, lik, liks).

(* The updates of the stayers, 3120-3610 *)
Definition dem_update_stayers (c : dsettings) (iter : nat) (cons : qp * qp) (data : list dobs)
    (qi : list (list R)) (p : dpar) : res (dpar * (qp * qp)) :=
  p <- (if up_pk0 c
        then pk <- dpk_update nk nl (dd_prior_stayers c) (map dg1 data) qi ;;
             Ok (dset_pk0 pk p)
        else Ok p) ;;
  if up_rho32s c && (iter mod 2 =? 1)%nat
  then Ok (dset_rho (R12 p) (R43 p) (R32m p) (new_rho32s nl p data qi) p, cons)
  else if up_a_stayers c || up_s_stayers c
  then cons <- (if up_a_stayers c && (0 <? iter)%nat
                then dgen_constraints nl nk c false else Ok cons) ;;
       Ok (update_AS_stayers c cons data qi p, cons)
  else Ok (p, cons).

Definition diter_lik_stayers (c : dsettings) (iter : nat) (p : dpar) (m : R) : R :=
  if (0 <? iter)%nat && up_pk0 c
  then m + lik_prior (dd_prior_stayers c) nk nl (dpk0 p) else m.

(* The loop, 3045-3675; the threshold is threshold_movers (3115) *)
Fixpoint dstayers_loop (n : nat) (c : dsettings) (data : list dobs) (stable : list (list R))
    (iter : nat) (cons : qp * qp) (p : dpar) (prev : option R)
    (lik : option R) (liks : list R) : res (dpar * option R * list R) :=
  match n with
  | O => Ok (p, lik, liks)
  | S n' =>
      lp <- dlp_stayers nl nk p stable data ;;
      m <- mean_lse lp ;;
      qi <- posteriors lp ;;
      let lik0 := diter_lik_stayers c iter p m in
      let liks := liks ++ [lik0] in
      if converged (dthreshold c) lik0 prev
      then Ok (p, Some lik0, liks)
      else
        ' (p, cons) <- dem_update_stayers c iter cons data qi p ;;
        dstayers_loop n' c data stable (S iter) cons p (Some lik0) (Some lik0) liks
  end.

(* fit_stayers, 2906-3688 *)
Definition dstayer_counts (data : list dobs) : nat -> R :=
  fun a => INR (length (filter (fun o => dg1 o =? a)%nat data)).
Definition dfit_stayers (c : dsettings) (compute_NNs : bool) (data : list dobs) (p : dpar)
  : res (dpar * option R * list R) :=
  stable <- dlp_stable nl nk p data ;;
  cons <- dgen_constraints nl nk c false ;;
  ' (p, lik, liks) <- dstayers_loop (dn_iters_stayers c) c data stable 0 cons p None None [] ;;
  let p := if compute_NNs then dset_NNs (dstayer_counts data) p else p in
  Ok (p, lik, liks).
End DFit.
