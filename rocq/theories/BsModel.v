(* pytwoway/borovickovashimer.py: the Borovickova-Shimer estimator. *)
From Verif Require Import Base UtilModel.
Local Open Scope R_scope.

(* A row of adata: worker, firm, period, wage, weight; [bu] is the column
   'unweighted_y' that fit adds and drops, None when the column is absent. *)
Record brow := mkbrow { bi : nat; bj : nat; bt : nat; by_ : R; bw : R; bu : option R }.

(* ---- _compute_mean_sq (8-48) ---- *)
(* np.unique(col): the distinct values in increasing order; return_index: the
   position where each occurs first. *)
Definition np_unique (l : list nat) : list nat :=
  filter (fun v => existsb (Nat.eqb v) l) (range (S (list_max l))).
Fixpoint first_index (v : nat) (l : list nat) : nat :=
  match l with [] => 0%nat | x :: l => if (x =? v)%nat then 0%nat else S (first_index v l) end.

(* np.split(a, idx): a[0:idx0], a[idx0:idx1], ..., a[last:]. *)
Definition slice {A} (a b : nat) (l : list A) : list A := firstn (b - a) (skipn a l).
Definition np_split {A} (l : list A) (idx : list nat) : list (list A) :=
  map (fun ab => slice (fst ab) (snd ab) l) (combine (0%nat :: idx) (idx ++ [length l])).

(* (np.sum(cart) - np.trace(cart)) / 2 for the table of all products (34-36, 43-44). *)
Definition half_off_diagonal (x : list R) : R :=
  (rsum (map (fun a => rsum (map (fun b => a * b) x)) x) - rsum (map (fun a => a * a) x)) / 2.

(* 8-48.  [key] is col_groupby, [val] col_grouped, [wt] the weights.  A group with one
   row is 0/0 = nan in NumPy; the theorems assume two rows per group. *)
Definition mean_sq (key : brow -> nat) (val : brow -> R) (wt : option (brow -> R)) (l : list brow) : list R :=
  let groups := map (fun v => first_index v (map key l)) (np_unique (map key l)) in
  map (fun piece =>
    let cart_prod := half_off_diagonal (map val piece) in
    match wt with
    | None => cart_prod / (INR (length piece) * (INR (length piece) - 1) / 2)
    | Some w => cart_prod / half_off_diagonal (map w piece)
    end) (tl (np_split l groups)).

(* ---- groupby(key, sort=False) ---- *)
(* Groups in order of first appearance. *)
Definition appearance (key : brow -> nat) (l : list brow) : list nat :=
  fold_left (fun acc r => if existsb (Nat.eqb (key r)) acc then acc else acc ++ [key r]) l [].
Definition rows_of (key : brow -> nat) (l : list brow) (v : nat) : list brow :=
  filter (fun r => (key r =? v)%nat) l.
Definition gsum (key : brow -> nat) (f : brow -> R) (l : list brow) (v : nat) : R :=
  rsum (map f (rows_of key l v)).
Definition gsize (key : brow -> nat) (l : list brow) (v : nat) : R := INR (length (rows_of key l v)).

Record bs_res := mkbs { r_var_y : R; r_mean : R; r_var_lambda : R; r_var_mu : R; r_cov : R; r_corr : R }.

(* adata['y'] = w * y, keeping the wage in 'unweighted_y' (79-81, 170-171). *)
Definition weigh (r : brow) : brow := mkbrow (bi r) (bj r) (bt r) (bw r * by_ r) (bw r) (Some (by_ r)).
(* 280-286. *)
Definition restore (r : brow) : brow :=
  match bu r with Some y => mkbrow (bi r) (bj r) (bt r) y (bw r) None | None => r end.
Definition unweighted_y (r : brow) : R := match bu r with Some y => y | None => 0 end.

Section Fit.
(* adata.sort_values('j') (quicksort, not stable) and adata.sort_rows(). *)
Variables sort_j sort_rows : list brow -> list brow.

(* 83-91, 174-179. *)
Definition var_y (weighted : bool) (l : list brow) : R :=
  if weighted then weighted_var (map by_ l) (WVec (map bw l)) 0 else weighted_var (map by_ l) (WScalar 1) 0.

(* The standard estimator, 76-164.  [l] is the frame after [weigh] when weighted. *)
Definition weights_sum (weighted : bool) key l v : R := if weighted then gsum key bw l v else gsize key l v.
(* lambda_i (93-100) and mu_j (131-137) *)
Definition group_mean (weighted : bool) key l v : R := gsum key by_ l v / weights_sum weighted key l v.
(* lambda_i_sq (102-111) and mu_j_sq (139-148) *)
Definition group_mean_sq (weighted : bool) key l : list R :=
  if weighted then
    mean_sq key (fun r => sqrt (bw r) * unweighted_y r) (Some (fun r => sqrt (bw r))) l
  else mean_sq key by_ None l.
Definition y_bar (weighted : bool) key l : R :=
  rsum (map (fun v => weights_sum weighted key l v * group_mean weighted key l v) (appearance key l))
  / rsum (map (weights_sum weighted key l) (appearance key l)).
(* sigma_lambda_sq (116-117) and sigma_mu_sq (150-151), given y_bar *)
Definition sigma_sq (weighted : bool) key l (m : R) : R :=
  rsum (map2 Rmult (map (weights_sum weighted key l) (appearance key l)) (group_mean_sq weighted key l))
  / rsum (map (weights_sum weighted key l) (appearance key l)) - m ^ 2.
(* c_i (119-127) and c_j (153-160): transform('sum') *)
Definition leave_out (weighted : bool) key l (r : brow) : R :=
  (gsum key by_ l (key r) - by_ r)
  / (if weighted then gsum key bw l (key r) - bw r else gsize key l (key r) - 1).

(* The column c_i is computed before the rows are sorted by firm and travels with its
   row; here it is a function of the row and of the unsorted frame. *)
Definition fit_standard (weighted : bool) (l : list brow) : bs_res :=
  let m := y_bar weighted bi l in
  let l' := sort_j l in
  let c r := leave_out weighted bi l r * leave_out weighted bj l' r in
  let cov := (if weighted then rsum (map (fun r => bw r * c r) l') / rsum (map bw l')
              else rsum (map c l') / INR (length l')) - m ^ 2 in
  let sl := sigma_sq weighted bi l m in
  let sm := sigma_sq weighted bj l' m in
  mkbs (var_y weighted l) m sl sm cov (cov / sqrt (sl * sm)).

(* The alternative estimator, 166-275. *)
Definition alt_weights_sq (weighted : bool) key l : list R :=
  if weighted then map (fun x => 2 * x) (mean_sq key bw None l)
  else map (fun _ => 2 * (1 / 2)) (appearance key l).
Definition alt_weights (weighted : bool) key l v : R :=
  if weighted then gsum key bw l v / gsize key l v else 1.
Definition alt_mean key l v : R := gsum key by_ l v / gsize key l v.
Definition alt_y_bar (weighted : bool) key l : R :=
  rsum (map (fun v => weights_sum weighted key l v * alt_mean key l v) (appearance key l))
  / rsum (map (fun v => weights_sum weighted key l v * alt_weights weighted key l v) (appearance key l)).
Definition alt_sigma_sq (weighted : bool) key l (m : R) : R :=
  rsum (map2 Rmult (map (weights_sum weighted key l) (appearance key l)) (mean_sq key by_ None l))
  / rsum (map2 Rmult (map (weights_sum weighted key l) (appearance key l)) (alt_weights_sq weighted key l)) - m ^ 2.
Definition alt_leave_out key l (r : brow) : R := (gsum key by_ l (key r) - by_ r) / (gsize key l (key r) - 1).
Definition alt_leave_out_w (weighted : bool) key l (r : brow) : R :=
  if weighted then (gsum key bw l (key r) - bw r) / (gsize key l (key r) - 1) else 1.

Definition fit_alternative (weighted : bool) (l : list brow) : bs_res :=
  let l' := sort_j l in
  let mi := alt_y_bar weighted bi l in
  let mj := alt_y_bar weighted bj l' in
  let c r := alt_leave_out bi l r * alt_leave_out bj l' r in
  let cw r := alt_leave_out_w weighted bi l r * alt_leave_out_w weighted bj l' r in
  let cov := (if weighted then rsum (map (fun r => bw r * c r) l') / rsum (map (fun r => bw r * cw r) l')
              else rsum (map c l') / INR (length l')) - mi * mj in
  let sl := alt_sigma_sq weighted bi l mi in
  let sm := alt_sigma_sq weighted bj l' mj in
  mkbs (var_y weighted l) ((mi + mj) / 2) sl sm cov (cov / sqrt (sl * sm)).

(* fit (58-294): the result and the frame as the caller finds it afterwards.
   [no_returns] and [has_w] are adata.no_returns and adata._col_included('w'). *)
Definition fit (no_returns has_w : bool) (alternative_estimator weighted : bool) (l : list brow)
  : res (bs_res * list brow) :=
  if no_returns then
    let weighted := (weighted && has_w)%bool in
    let l1 := if weighted then map weigh l else l in
    let r := if alternative_estimator then fit_alternative weighted l1 else fit_standard weighted l1 in
    let l2 := sort_j l1 in
    let l3 := if weighted then map restore l2 else l2 in
    Ok (r, sort_rows l3)
  else Err ValueError.
End Fit.
