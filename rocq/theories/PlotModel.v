(* Model of plot_log_earnings of BLMBootstrap and DynamicBLMBootstrap, and of
   plot_liks_connectedness of BLMEstimator and DynamicBLMEstimator: the numbers
   handed to matplotlib. *)
From Verif Require Import Base BLMModel DBLMModel BLMRealModel BLMRunModel.
Local Open Scope res_scope.
Local Open Scope R_scope.

(* The sorting inside np.percentile. *)
Fixpoint rinsert (x : R) (l : list R) : list R :=
  match l with
  | [] => [x]
  | y :: r => if Rle_dec x y then x :: l else y :: rinsert x r
  end.
Definition rsort (l : list R) : list R := fold_right rinsert [] l.

(* np.percentile(x, 100 * q) with the default method 'linear', x not empty: the
   position q (n - 1) of the sorted values, linearly between two values; the next
   value of the last one is itself. *)
Definition percentile (q : R) (x : list R) : R :=
  let s := rsort x in
  let n := length x in
  let h := q * INR (n - 1) in
  let i := Z.to_nat (Int_part h) in
  let j := Nat.min (i + 1) (n - 1) in
  nth i s 0 + (nth j s 0 - nth i s 0) * (h - INR i).

(* One point of plt.errorbar: its height and the lengths of its bar. *)
Record bar : Type := mkbar { b_mean : R; b_down : R; b_up : R }.

(* blm.py:2679-2683 and blm_dynamic.py:4309-4313 for one cell: x holds the value
   of each model *)
Definition mk_bar (x : list R) : bar :=
  let m := rsum x / INR (length x) in
  mkbar m (m - percentile (25 / 1000) x) (percentile (975 / 1000) x - m).

(* plt.errorbar raises ValueError if yerr contains a negative number. *)
Definition negative (b : bar) : bool :=
  if Rlt_dec (b_down b) 0 then true else if Rlt_dec (b_up b) 0 then true else false.
Definition errorbar (bs : list bar) : res (list bar) :=
  if existsb negative bs then Err ValueError else Ok bs.

(* blm.py:2668-2677 and blm_dynamic.py:4298-4307 *)
Definition pick (per : rperiod) (a b : mat) : res mat :=
  match per with
  | RFirst => Ok a
  | RSecond => Ok b
  | RAll => Ok (fun l k => (a l k + b l k) / 2)
  | ROther => Err ValueError
  end.

(* blm.py:2679-2690 and blm_dynamic.py:4309-4320: a line for each worker type.
   np.percentile of no values is an error. *)
Definition plot_bars (nl nk : nat) (ms : list mat) : res (list (list bar)) :=
  match ms with
  | [] => Err IndexError
  | _ => traverse (fun l =>
           errorbar (map (fun k => mk_bar (map (fun A : mat => A l k) ms)) (range nk))) (range nl)
  end.

Section Plot.
Variable argsort : list R -> list nat.
Variables (pp : period) (nl nk : nat).

(* BLMBootstrap.plot_log_earnings, blm.py:2649-2696, after a fit (self.models is
   not None).  The drawing is not modelled. *)
Definition plot_log_earnings (per : rperiod) (models : list par) : res (list (list bar)) :=
  ms <- traverse (fun m =>
      let p := sort_parameters argsort pp nl nk true false m in pick per (A1 p) (A2 p)) models ;;
  plot_bars nl nk ms.

(* DynamicBLMBootstrap.plot_log_earnings, blm_dynamic.py:4279-4327 *)
Definition dplot_log_earnings (per : rperiod) (models : list dpar) : res (list (list bar)) :=
  ms <- traverse (fun m =>
      let p := dsort_parameters argsort pp nl nk true false m in pick per (dA p T12) (dA p T43)) models ;;
  plot_bars nl nk ms.
End Plot.

(* ------------------------------------------------------------------ *)
Section Scatter.
Context {M : Type} (lik1 : M -> R) (connectedness : M -> option R).

(* list.index of a pair of floats; ValueError if it is not there *)
Fixpoint index_of (v : R * R) (l : list (R * R)) : res nat :=
  match l with
  | [] => Err ValueError
  | w :: l => if Req_EM_T (fst v) (fst w)
              then if Req_EM_T (snd v) (snd w) then Ok 0%nat else i <- index_of v l ;; Ok (S i)
              else i <- index_of v l ;; Ok (S i)
  end.
(* del l[i] *)
Definition ldel {A} (i : nat) (l : list A) : list A := firstn i l ++ skipn (S i) l.

(* The three sets of points: circles, triangles and the star. *)
Record scatter : Type := mkscatter { sc_low : list (R * R); sc_high : list (R * R); sc_best : R * R }.

(* plot_liks_connectedness, blm.py:2483-2512 and blm_dynamic.py:4117-4146, after a
   fit and without jitter.  The model kept has a connectedness (blm.py:2414). *)
Definition plot_liks_connectedness (f : @fitted M) : res scatter :=
  let best := (lik1 (f_model f), conn_val connectedness (f_model f)) in
  i <- index_of best (combine (f_liks_high f) (f_connectedness_high f)) ;;
  Ok (mkscatter (combine (f_liks_low f) (f_connectedness_low f))
        (combine (ldel i (f_liks_high f)) (ldel i (f_connectedness_high f))) best).
End Scatter.
