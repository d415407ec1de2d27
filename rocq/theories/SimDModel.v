(* Model of pytwoway/simdblm.py: SimDynamicBLM._sort_A, _gen_params, _simulate_movers,
   _simulate_stayers and simulate, with control variables.

   What the random number generator returns is a parameter.  Wages are real numbers;
   rng.normal(loc, scale) is loc + scale * z for a drawn z.  Arrays have an identity:
   a dictionary over periods may hold the same array under two keys. *)
From Verif Require Import Base UtilModel BLMModel DBLMModel DBootModel SimModel.
Local Open Scope res_scope.
Local Open Scope R_scope.

(* simdblm.py:569, in this order; periods_movers (570) and periods_stayers (571) *)
Definition all_periods : list dper :=
  [PA T12; PA T43; PA T2ma; PA T3ma; PB T2mb; PB T3mb; PA T2s; PA T3s].
Definition periods_movers : list dper := [PA T12; PA T43; PA T2ma; PA T3ma; PB T2mb; PB T3mb].
Definition periods_stayers : list dper := [PA T12; PA T43; PA T2ma; PA T3ma; PA T2s; PA T3s].
(* simdblm.py:572-574  periods_dict: false for the first, true for the second firm *)
Definition second (p : dper) : bool :=
  match p with
  | PA T12 | PA T2ma | PB T3mb | PA T2s => false
  | PA T43 | PB T2mb | PA T3ma | PA T3s => true
  end.
(* period[-1] == 'b' *)
Definition is_b (p : dper) : bool := match p with PB _ => true | PA _ => false end.
Definition dper_eqb (p q : dper) : bool :=
  match p, q with
  | PA a, PA b => aper_eqb a b
  | PB a, PB b => bper_eqb a b
  | _, _ => false
  end.

(* ---- arrays and dictionaries ---------------------------------------------- *)

(* A number, an array of shape (n,), an array of shape (r, c). *)
Inductive arr : Type := Num (x : R) | Arr1 (n : nat) (f : nat -> R) | Arr2 (r c : nat) (f : mat).

(* A dictionary over periods: the name of the array of each period, the arrays, and
   the next unused name. *)
Record dict : Type := mkdict { name : dper -> nat; heap : nat -> arr; next : nat }.
Definition get (d : dict) (p : dper) : arr := heap d (name d p).
(* d[p] = a with a newly created array *)
Definition put (d : dict) (p : dper) (a : arr) : dict :=
  mkdict (fun q => if dper_eqb p q then next d else name d q)
         (fun i => if Nat.eqb i (next d) then a else heap d i) (S (next d)).
(* d[p] = d[q]: both keys now hold the same array *)
Definition alias (d : dict) (p q : dper) : dict :=
  mkdict (fun q' => if dper_eqb p q' then name d q else name d q') (heap d) (next d).
(* d[p][:] = 0: the array itself is changed *)
Definition zeroed (a : arr) : arr :=
  match a with Num _ => Num 0 | Arr1 n _ => Arr1 n (fun _ => 0) | Arr2 r c _ => Arr2 r c (fun _ _ => 0) end.
Definition fill0 (d : dict) (p : dper) : dict :=
  mkdict (name d) (fun i => if Nat.eqb i (name d p) then zeroed (heap d i) else heap d i) (next d).
(* a dictionary of newly created arrays *)
Definition fresh (f : dper -> arr) : dict :=
  fold_left (fun d p => put d p (f p)) all_periods (mkdict (fun _ => 0%nat) (fun _ => Num 0) 1%nat).

(* ---- parameters ------------------------------------------------------------ *)

Section Params.
Variable argsort : list R -> list nat.                   (* np.argsort *)
Variable sort : list R -> list R.                        (* np.sort *)

(* simdblm.py:608-645  _sort_A.  The arrays are different ones at this point, so the
   sorting in place (624) is that of each array. *)
Definition dsort_A (nl nk : nat) (strictly_monotone_a : bool) (A : aper -> mat) (Ab : bper -> nat -> R)
  : (aper -> mat) * (bper -> nat -> R) :=
  let A := if strictly_monotone_a then fun t => sort_rows sort nk (A t) else A in
  let o := argsort (row_means nl nk (A T12)) in
  let A := fun t => take_rows o (A t) in
  if strictly_monotone_a then (A, Ab)
  else
    let o := argsort (col_means nl nk (A T12)) in
    (fun t => take_cols o (A t), fun b k => Ab b (nth k o 0%nat)).

(* np.mean(a, axis=1) + a12 - np.mean(a12, axis=1), simdblm.py:760 and 826.  An array
   of shape (n,) has no axis 1: numpy.AxisError, a ValueError.  The means have shape
   (nl,) and are lined up with the second dimension of a12 (see SimModel). *)
Definition variation2 (a a12 : arr) : res arr :=
  match a, a12 with
  | Arr2 r c f, Arr2 r' c' f' =>
      if (r =? r')%nat && (c =? c')%nat then
        h <- firm_type_variation r c f' f ;;
        Ok (Arr2 r (if (c =? 1)%nat then r else c) h)
      else Err ValueError
  | _, _ => Err ValueError
  end.
(* np.mean(a) + a12 - np.mean(a12), simdblm.py:762 and 803 *)
Definition mean_all (a : arr) : R :=
  match a with
  | Num x => x
  | Arr1 n f => sumn n f / INR n
  | Arr2 r c f => sumn r (fun i => sumn c (f i)) / INR (r * c)
  end.
Definition map_arr (h : R -> R) (a : arr) : arr :=
  match a with
  | Num x => Num (h x)
  | Arr1 n f => Arr1 n (fun i => h (f i))
  | Arr2 r c f => Arr2 r c (fun i j => h (f i j))
  end.
Definition variation1 (a a12 : arr) : arr := map_arr (fun x => mean_all a + x - mean_all a12) a12.

(* simdblm.py:816-826 (and the same loops of the controls): [vary] is the right-hand
   side for stationary_firm_type_variation. *)
Definition make_equal (on : bool) (d : dict) : dict :=
  if on then fold_left (fun d p => alias d p (PA T12)) (tl all_periods) d else d.
Definition make_vary (vary : arr -> arr -> res arr) (on : bool) (d : dict) : res dict :=
  if on then
    for_each (tl all_periods)
      (fun p d => a <- vary (get d p) (get d (PA T12)) ;; Ok (put d p a)) d
  else Ok d.
(* simdblm.py:828-834 and 764-770 *)
Definition switch_off (endogeneity state_dependence : bool) (d : dict) : dict :=
  let d := if endogeneity then d else fill0 d (PB T2mb) in
  if state_dependence then d else fill0 d (PB T3mb).
(* simdblm.py:806-812: the keys are given the number 0 *)
Definition switch_off_cts (endogeneity state_dependence : bool) (d : dict) : dict :=
  let d := if endogeneity then d else put d (PB T2mb) (Num 0) in
  if state_dependence then d else put d (PB T3mb) (Num 0).

(* The options of sim_dynamic_blm_params that matter here; the stationarity options
   exist once more for each control variable. *)
Record stat : Type := mkstat { stat_A : bool; stat_S : bool; stat_var : bool }.
Record opts : Type := mkopts {
  strictly : bool; additive_ : bool; endo : bool; sdep : bool; ostat : stat
}.

(* The drawn parameters, simdblm.py:670-710: alpha_t and psi_t if linear_additive, A
   otherwise; for the periods of shape (nk,) alpha_t has size 1. *)
Record pdraws : Type := mkpdraws {
  pd_alpha : dper -> nat -> R; pd_psi : dper -> nat -> R;
  pd_A : aper -> mat; pd_Ab : bper -> nat -> R;
  pd_S : aper -> mat; pd_Sb : bper -> nat -> R
}.
Definition drawn_A (o : opts) (d : pdraws) (t : aper) : mat :=
  drawn (additive_ o) (pd_alpha d (PA t)) (pd_psi d (PA t)) (pd_A d t).
Definition drawn_Ab (o : opts) (d : pdraws) (b : bper) : nat -> R :=
  if additive_ o then fun k => pd_alpha d (PB b) 0%nat + pd_psi d (PB b) k else pd_Ab d b.

Definition by_period (nl nk : nat) (A : aper -> mat) (Ab : bper -> nat -> R) (p : dper) : arr :=
  match p with PA t => Arr2 nl nk (A t) | PB b => Arr1 nk (Ab b) end.

(* simdblm.py:813-834  A and S *)
Definition gen_AS (nl nk : nat) (o : opts) (d : pdraws) : res (dict * dict) :=
  let (A, Ab) := dsort_A nl nk (strictly o) (drawn_A o d) (drawn_Ab o d) in
  let dA := make_equal (stat_A (ostat o)) (fresh (by_period nl nk A Ab)) in
  let dS := make_equal (stat_S (ostat o)) (fresh (by_period nl nk (pd_S d) (pd_Sb d))) in
  dA <- make_vary variation2 (stat_var (ostat o)) dA ;;
  Ok (switch_off (endo o) (sdep o) dA, switch_off (endo o) (sdep o) dS).

(* A categorical control variable as specified and drawn (724-745): n categories;
   with worker_type_interaction the arrays have shape (nl, n), else (n,), for the
   periods '2mb' and '3mb' always (n,). *)
Record catspec : Type := mkcat {
  cat_n : nat; cat_int : bool; cat_stat : stat; cat_A : dper -> mat; cat_S : dper -> mat
}.
Definition cat_arr (nl : nat) (c : catspec) (f : dper -> mat) (p : dper) : arr :=
  if cat_int c && negb (is_b p) then Arr2 nl (cat_n c) (f p) else Arr1 (cat_n c) (f p 0%nat).
(* simdblm.py:747-770 *)
Definition gen_cat (nl : nat) (o : opts) (c : catspec) : res (dict * dict) :=
  let dA := make_equal (stat_A (cat_stat c)) (fresh (cat_arr nl c (cat_A c))) in
  let dS := make_equal (stat_S (cat_stat c)) (fresh (cat_arr nl c (cat_S c))) in
  let vary := if cat_int c then variation2 else fun a a12 => Ok (variation1 a a12) in
  dA <- make_vary vary (stat_var (cat_stat c)) dA ;;
  Ok (switch_off (endo o) (sdep o) dA, switch_off (endo o) (sdep o) dS).

(* A continuous control variable (771-790): arrays of shape (nl,) with
   worker_type_interaction, else and for '2mb' and '3mb' of shape (1,). *)
Record ctsspec : Type := mkcts {
  cts_int : bool; cts_stat : stat; cts_A : dper -> nat -> R; cts_S : dper -> nat -> R
}.
Definition cts_arr (nl : nat) (c : ctsspec) (f : dper -> nat -> R) (p : dper) : arr :=
  Arr1 (if cts_int c && negb (is_b p) then nl else 1%nat) (f p).
(* simdblm.py:791-812 *)
Definition gen_cts (nl : nat) (o : opts) (c : ctsspec) : res (dict * dict) :=
  let dA := make_equal (stat_A (cts_stat c)) (fresh (cts_arr nl c (cts_A c))) in
  let dS := make_equal (stat_S (cts_stat c)) (fresh (cts_arr nl c (cts_S c))) in
  dA <- make_vary (fun a a12 => Ok (variation1 a a12)) (stat_var (cts_stat c)) dA ;;
  Ok (switch_off_cts (endo o) (sdep o) dA, switch_off_cts (endo o) (sdep o) dS).
End Params.

(* ---- wages ------------------------------------------------------------------ *)

(* a[l, k] *)
Definition idx2 (a : arr) (l k : nat) : res R :=
  match a with
  | Arr2 r c f => if (l <? r)%nat && (k <? c)%nat then Ok (f l k) else Err IndexError
  | _ => Err IndexError
  end.
(* a[k], the number that is added for a row.  With an array of shape (r, c) this is a
   whole row; the sum over the rows of the data then has two dimensions, which
   A_sum[period] += and rng.normal(..., size=nmi) refuse. *)
Definition idx1 (a : arr) (k : nat) : res R :=
  match a with
  | Arr1 n f => if (k <? n)%nat then Ok (f k) else Err IndexError
  | Arr2 r c f => if (k <? r)%nat then Err ValueError else Err IndexError
  | Num _ => Err TypeError
  end.
(* a itself added to (or multiplied with) an array of shape (rows,), at row r *)
Definition spread (rows : nat) (a : arr) (r : nat) : res R :=
  match a with
  | Num x => Ok x
  | Arr1 n f => if (n =? 1)%nat then Ok (f 0%nat) else if (n =? rows)%nat then Ok (f r) else Err ValueError
  | Arr2 _ _ _ => Err ValueError
  end.

(* A control variable with its generated parameters. *)
Record ctrl : Type := mkctrl { c_int : bool; c_A : dict; c_S : dict }.

(* simdblm.py:914-936 (movers) and 1042-1064 (stayers), at one row: [a], [c], [x] are
   the worker type, the category of each categorical and the value of each
   continuous control variable in the period of the firm.  For stayers the periods
   are not '2mb' and '3mb', so the test of period[-1] makes no difference. *)
Definition interacted (c : ctrl) (p : dper) : bool := c_int c && negb (is_b p).
Definition cat_term (c : ctrl) (a : arr) (p : dper) (l code : nat) : res R :=
  if interacted c p then idx2 a l code else idx1 a code.
Definition cts_term (rows : nat) (c : ctrl) (a : arr) (p : dper) (r l : nat) : res R :=
  if interacted c p then idx1 a l else spread rows a r.

(* simdblm.py:900-936 and 1018-1064  A_sum[period] *)
Definition base (d : dict) (p : dper) (l k : nat) : res R :=
  if is_b p then idx1 (get d p) k else idx2 (get d p) l k.
Definition A_sum (rows : nat) (A : dict) (cats ctss : list ctrl) (p : dper) (r l k : nat)
    (code : nat -> nat) (x : nat -> R) : res R :=
  a <- base A p l k ;;
  a <- for_each (enumerate cats)
         (fun ic a => v <- cat_term (snd ic) (get (c_A (snd ic)) p) p l (code (fst ic)) ;; Ok (a + v)) a ;;
  for_each (enumerate ctss)
    (fun ic a => v <- cts_term rows (snd ic) (get (c_A (snd ic)) p) p r l ;; Ok (a + v * x (fst ic))) a.
(* S_sum_sq[period]: only the first term is squared *)
Definition S_sum_sq (rows : nat) (S : dict) (cats ctss : list ctrl) (p : dper) (r l k : nat)
    (code : nat -> nat) : res R :=
  s <- base S p l k ;;
  s <- for_each (enumerate cats)
         (fun ic s => v <- cat_term (snd ic) (get (c_S (snd ic)) p) p l (code (fst ic)) ;; Ok (s + v)) (s ^ 2) ;;
  for_each (enumerate ctss)
    (fun ic s => v <- cts_term rows (snd ic) (get (c_S (snd ic)) p) p r l ;; Ok (s + v)) s.

Record rhos : Type := mkrhos { r12 : R; r43 : R; r32m : R; r32s : R }.

(* simdblm.py:948-967 *)
Definition mover_y (q : rhos) (A S : dper -> R) (z : quad R) : quad R :=
  let Y1 := A (PA T12) - r12 q * A (PA T2ma) + sqrt (S (PA T12) + r12 q ^ 2 * S (PA T2ma)) * at1 z in
  let Y2 := A (PA T2ma) + A (PB T2mb) + sqrt (S (PA T2ma) + S (PB T2mb)) * at2 z in
  let Y1 := Y1 + r12 q * Y2 in
  let Y3 := A (PA T3ma) + A (PB T3mb) - r32m q * (A (PA T2ma) + A (PB T2mb))
            + sqrt (S (PA T3ma) + S (PB T3mb) + r32m q ^ 2 * (S (PA T2ma) + S (PB T2mb))) * at3 z in
  let Y3 := Y3 + r32m q * Y2 in
  let Y4 := A (PA T43) - r43 q * A (PA T3ma) + sqrt (S (PA T43) + r43 q ^ 2 * S (PA T3ma)) * at4 z in
  let Y4 := Y4 + r43 q * Y3 in
  Q4 Y1 Y2 Y3 Y4.
(* simdblm.py:1075-1094 *)
Definition stayer_y (q : rhos) (A S : dper -> R) (z : quad R) : quad R :=
  let Y1 := A (PA T12) - r12 q * A (PA T2ma) + sqrt (S (PA T12) + r12 q ^ 2 * S (PA T2ma)) * at1 z in
  let Y2 := A (PA T2s) + sqrt (S (PA T2s)) * at2 z in
  let Y1 := Y1 + r12 q * Y2 in
  let Y3 := A (PA T3s) - r32s q * A (PA T2s) + sqrt (S (PA T3s) + r32s q ^ 2 * S (PA T2s)) * at3 z in
  let Y3 := Y3 + r32s q * Y2 in
  let Y4 := A (PA T43) - r43 q * A (PA T3ma) + sqrt (S (PA T43) + r43 q ^ 2 * S (PA T3ma)) * at4 z in
  let Y4 := Y4 + r43 q * Y3 in
  Q4 Y1 Y2 Y3 Y4.

(* {period: f(period) for period in ps} *)
Definition lookup (l : list (dper * R)) (p : dper) : R :=
  match find (fun q => dper_eqb (fst q) p) l with Some (_, x) => x | None => 0 end.
Definition over_periods (ps : list dper) (f : dper -> res R) : res (dper -> R) :=
  l <- traverse (fun p => x <- f p ;; Ok (p, x)) ps ;;
  Ok (lookup l).

(* What the generator returns for the workers: [frame] for worker types and firms (as
   in SimModel; its wage draws are not used), four normal draws per row, and for each
   control variable, firm (false for the first, true for the second) and row the
   category or the value. *)
Record wdraws : Type := mkwdraws {
  frame : draws;
  zm : nat -> quad R; zs : nat -> quad R;
  catm : nat -> bool -> nat -> nat; cats_ : nat -> bool -> nat -> nat;
  ctsm : nat -> bool -> nat -> R; ctss_ : nat -> bool -> nat -> R
}.

(* A row of the result (969, 1096 and 1124-1162); one entry per control variable in
   d_cat and d_cts. *)
Record drow : Type := mkdrow {
  d_i : nat; d_m : nat; d_j : quad nat; d_g : quad nat; d_l : nat; d_y : quad R;
  d_cat : list (quad nat); d_cts : list (quad R)
}.

Section Sim.
Variables nl nk : nat.
Variables cm : nat -> nat -> nat.                        (* mmult * NNm *)
Variables cs : nat -> nat.                               (* smult * NNs *)
Variable q : rhos.
Variable g : wdraws.

(* simdblm.py:880-898 and 1000-1016: types as in simblm.py:492-506 and 613-626 (the
   wages of these rows are not used) *)
Definition no_wage : mat := fun _ _ => 0.
Definition mrows : list srow := movers nk cm no_wage no_wage no_wage no_wage (frame g).
Definition srows : list srow := stayers nk cs no_wage no_wage no_wage no_wage (frame g).

(* the two firm types of a row, by periods_dict *)
Definition type_in (s : srow) (p : dper) : nat := if second p then s_g2 s else s_g1 s.

(* simdblm.py:900-967 and 1018-1094 *)
Definition wages (ps : list dper) (y : rhos -> (dper -> R) -> (dper -> R) -> quad R -> quad R)
    (A S : dict) (cats ctss : list ctrl) (rows : list srow) (z : nat -> quad R)
    (code : nat -> bool -> nat -> nat) (x : nat -> bool -> nat -> R) : res (list (quad R)) :=
  traverse (fun rs : nat * srow => let (r, s) := rs in
      a <- over_periods ps (fun p => A_sum (length rows) A cats ctss p r (s_l s) (type_in s p)
             (fun c => code c (second p) r) (fun c => x c (second p) r)) ;;
      v <- over_periods ps (fun p => S_sum_sq (length rows) S cats ctss p r (s_l s) (type_in s p)
             (fun c => code c (second p) r)) ;;
      Ok (y q a v (z r)))
    (enumerate rows).

(* a control variable is constant within a job: name1 and name2 are the first draw,
   name3 and name4 the second, simdblm.py:938-945 and 1066-1073 *)
Definition in_jobs {A} (f : bool -> A) : quad A := Q4 (f false) (f false) (f true) (f true).
Definition out_row (code : nat -> bool -> nat -> nat) (x : nat -> bool -> nat -> R) (ncat ncts r : nat)
    (o : orow) (y : quad R) : drow :=
  mkdrow (o_i o) (o_m o) (Q4 (o_j1 o) (o_j1 o) (o_j2 o) (o_j2 o))
    (Q4 (s_g1 (o_row o)) (s_g1 (o_row o)) (s_g2 (o_row o)) (s_g2 (o_row o))) (s_l (o_row o)) y
    (map (fun c => in_jobs (fun b => code c b r)) (range ncat))
    (map (fun c => in_jobs (fun b => x c b r)) (range ncts)).
Definition out (code : nat -> bool -> nat -> nat) (x : nat -> bool -> nat -> R) (ncat ncts : nat)
    (l : list orow) (ys : list (quad R)) : list drow :=
  map (fun ro : nat * orow => let (r, o) := ro in out_row code x ncat ncts r o (nth r ys (Q4 0 0 0 0))) (enumerate l).

(* simdblm.py:1121-1183 with _simulate_movers and _simulate_stayers, for generated
   parameters; the firms (1124-1157) are drawn as in simblm.py:705-738. *)
Definition simulate_with (fuel : nat) (A S : dict) (cats ctss : list ctrl) : res (list drow * list drow) :=
  ym <- wages periods_movers mover_y A S cats ctss mrows (zm g) (catm g) (ctsm g) ;;
  ys <- wages periods_stayers stayer_y A S cats ctss srows (zs g) (cats_ g) (ctss_ g) ;;
  ' (jd, sd) <- SimModel.simulate nk cm cs no_wage no_wage no_wage no_wage (frame g) fuel ;;
  Ok (out (catm g) (ctsm g) (length cats) (length ctss) jd ym,
      out (cats_ g) (ctss_ g) (length cats) (length ctss) sd ys).

(* simdblm.py:1101-1183  simulate with return_parameters=True *)
Definition dsim (argsort : list R -> list nat) (sort : list R -> list R) (o : opts) (d : pdraws)
    (cats : list catspec) (ctss : list ctsspec) (fuel : nat)
  : res (list drow * list drow * (dict * dict * list ctrl * list ctrl)) :=
  cc <- traverse (fun c => ' (A, Sg) <- gen_cat nl o c ;; Ok (mkctrl (cat_int c) A Sg)) cats ;;
  ct <- traverse (fun c => ' (A, Sg) <- gen_cts nl o c ;; Ok (mkctrl (cts_int c) A Sg)) ctss ;;
  ' (A, Sg) <- gen_AS argsort sort nl nk o d ;;
  ' (jd, sd) <- simulate_with fuel A Sg cc ct ;;
  Ok (jd, sd, (A, Sg, cc, ct)).
End Sim.
