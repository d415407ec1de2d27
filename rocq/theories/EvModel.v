(* Model of pytwoway/diagnostics/plot_extendedeventstudy.py. *)
From Verif Require Import Base.
Local Open Scope nat_scope.
Local Open Scope list_scope.
Local Open Scope res_scope.

(* A row of extended event study data: earnings and firm class of each period (columns y1, y2,
   ... and g1, g2, ...). *)
Record erow : Type := mkerow { e_y : list R; e_g : list nat }.

(* One subplot; a mean or standard error that is not a number is None. *)
Record panel : Type := mkpanel { p_x : list Z; p_y : list (option R); p_err : list (option R); p_n : nat }.

(* Series.mean, and Series.std (divisor n - 1) over the square root of n; NaN for too few rows *)
Definition smean (x : list R) : option R :=
  match x with [] => None | _ => Some (rsum x / INR (length x))%R end.
Definition serr (x : list R) : option R :=
  match x with
  | [] | [_] => None
  | _ => let m := (rsum x / INR (length x))%R in
         Some (sqrt (rsum (map (fun a => (a - m) * (a - m)) x) / INR (length x - 1)) / sqrt (INR (length x)))%R
  end.

(* lines 50: list(np.arange(-periods_pre, 0)) + list(np.arange(1, periods_pre + 1)) *)
Definition x_vals (pre : nat) : list Z :=
  map (fun i => (Z.of_nat i - Z.of_nat pre)%Z) (seq 0 pre) ++ map (fun i => (Z.of_nat i + 1)%Z) (seq 0 pre).

(* column g{t}, t counted from 1 *)
Definition gcol (t : nat) (r : erow) : res nat :=
  match t with
  | O => Err KeyError
  | S t => match nth_error (e_g r) t with Some c => Ok c | None => Err KeyError end
  end.
(* column number t of y, from 0; ny is the number of columns *)
Definition ycol (t : nat) (d : list erow) : list R := map (fun r => nth t (e_y r) 0%R) d.

(* lines 62-66: ax.errorbar raises ValueError if the lengths differ.  ycols, line 51, are all
   columns of y. *)
Definition errorbar (pre ny : nat) (d : list erow) : res panel :=
  if (length (x_vals pre) =? ny) then
    Ok (mkpanel (x_vals pre) (map (fun t => smean (ycol t d)) (seq 0 ny))
                (map (fun t => serr (ycol t d)) (seq 0 ny)) (length d))
  else Err ValueError.

(* lines 60-63: the rows of subplot (i, j) *)
Definition cell (pre i j : nat) (d : list erow) : res (list erow) :=
  ks <- traverse (fun r => a <- gcol pre r ;; b <- gcol (pre + 1) r ;; Ok ((a =? i) && (b =? j))) d ;;
  Ok (map snd (filter fst (combine ks d))).

(* lines 34-86.  plt.subplots raises ValueError for nrows=None, and gives one Axes, which
   enumerate refuses, for one by one.  periods_post is used for the tick marks only, which are
   not modelled, nor is anything else of the drawing. *)
Definition plot_es (n_clusters : option nat) (pre post ny : nat) (d : list erow) : res (list (list panel)) :=
  match n_clusters with
  | None => Err ValueError
  | Some 0 => Err ValueError
  | Some 1 => Err TypeError
  | Some k =>
      traverse (fun i => traverse (fun j => c <- cell pre i j d ;; errorbar pre ny c) (range k)) (range k)
  end.
