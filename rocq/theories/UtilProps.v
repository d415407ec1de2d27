(* Properties C01-C08: pytwoway/util.py. *)
From Verif Require Import Base UtilModel UtilSpec UtilListLemmas UtilStatLemmas
  UtilQuantLemmas UtilNumLemmas UtilPropLemmas.
From Coq Require Import Permutation Sorted.
Local Open Scope R_scope.

(* ================================================================== C01 *)
Theorem C01_unscramble_scramble {A} (xs : list A) :
  exists ys, scramble xs = Ok ys /\ Permutation ys xs /\ length ys = length xs
             /\ unscramble ys = xs.
Proof. exact (scramble_ok xs). Qed.
Print Assumptions C01_unscramble_scramble.

Theorem C01_scramble_unscramble {A} (xs : list A) :
  scramble (unscramble xs) = Ok xs.
Proof. exact (scramble_unscramble xs). Qed.
Print Assumptions C01_scramble_unscramble.

(* Results computed on the scrambled jobs and unscrambled are the results of
   the jobs in their own order. *)
Theorem C01_results_paired {J B} (run : J -> B) (jobs : list J) scrambled :
  scramble jobs = Ok scrambled -> unscramble (map run scrambled) = map run jobs.
Proof. exact (scramble_results run jobs scrambled). Qed.
Print Assumptions C01_results_paired.

Example C01_case :
  scramble [1; 2; 3; 4; 5]%nat = Ok [1; 5; 2; 4; 3]%nat
  /\ unscramble [1; 5; 2; 4; 3]%nat = [1; 2; 3; 4; 5]%nat.
Proof. split; reflexivity. Qed.

(* ================================================================== C02 *)
(* The mean lies between any two bounds of the data. *)
Theorem C02_mean_between v w lo hi :
  v <> [] -> length w = length v -> positive w ->
  (forall x, In x v -> lo <= x <= hi) ->
  lo <= weighted_mean v (WVec w) <= hi.
Proof. exact (mean_bounds v w lo hi). Qed.
Print Assumptions C02_mean_between.

Theorem C02_mean_unweighted v s :
  weighted_mean v (WScalar s) = rsum v / INR (length v).
Proof. exact eq_refl. Qed.
Print Assumptions C02_mean_unweighted.

Theorem C02_mean_equal_weights v c s :
  v <> [] -> 0 < c ->
  weighted_mean v (WVec (map (fun _ => c) v)) = weighted_mean v (WScalar s).
Proof. exact (mean_equal_weights v c s). Qed.
Print Assumptions C02_mean_equal_weights.

Theorem C02_scale_weights v1 v2 w c :
  v1 <> [] -> length w = length v1 -> length w = length v2 -> positive w -> 0 < c ->
  let w' := WVec (map (fun x => c * x) w) in
  weighted_mean v1 w' = weighted_mean v1 (WVec w)
  /\ weighted_var v1 w' 0 = weighted_var v1 (WVec w) 0
  /\ weighted_cov v1 v2 w' w' 0 = weighted_cov v1 v2 (WVec w) (WVec w) 0.
Proof. exact (scale_weights v1 v2 w c). Qed.
Print Assumptions C02_scale_weights.

Theorem C02_var_is_cov v w dof :
  length w = length v -> positive w ->
  weighted_var v (WVec w) dof = weighted_cov v v (WVec w) (WVec w) dof.
Proof. exact (var_is_cov v w dof). Qed.
Print Assumptions C02_var_is_cov.

Theorem C02_var_is_cov_unweighted v s1 s2 s3 dof :
  weighted_var v (WScalar s1) dof = weighted_cov v v (WScalar s2) (WScalar s3) dof.
Proof. exact (var_is_cov_scalar v s1 s2 s3 dof). Qed.
Print Assumptions C02_var_is_cov_unweighted.

Theorem C02_shift v1 v2 w c d dof :
  v1 <> [] -> length w = length v1 -> length w = length v2 -> positive w ->
  weighted_mean (map (fun x => x + c) v1) (WVec w) = weighted_mean v1 (WVec w) + c
  /\ weighted_var (map (fun x => x + c) v1) (WVec w) dof = weighted_var v1 (WVec w) dof
  /\ weighted_cov (map (fun x => x + c) v1) (map (fun x => x + d) v2)
       (WVec w) (WVec w) dof
     = weighted_cov v1 v2 (WVec w) (WVec w) dof.
Proof. exact (shift_all v1 v2 w c d dof). Qed.
Print Assumptions C02_shift.

Theorem C02_var_nonneg v w dof :
  length w = length v -> positive w -> dof < rsum w ->
  0 <= weighted_var v (WVec w) dof.
Proof. exact (var_nonneg v w dof). Qed.
Print Assumptions C02_var_nonneg.

Theorem C02_cov_sym v1 v2 w1 w2 dof :
  length w1 = length v1 -> length w2 = length v2 -> length v1 = length v2 ->
  weighted_cov v1 v2 (WVec w1) (WVec w2) dof
  = weighted_cov v2 v1 (WVec w2) (WVec w1) dof.
Proof. exact (cov_sym v1 v2 w1 w2 dof). Qed.
Print Assumptions C02_cov_sym.

Theorem C02_var_sum v1 v2 w dof :
  v1 <> [] -> length w = length v1 -> length w = length v2 -> positive w ->
  weighted_var (map2 Rplus v1 v2) (WVec w) dof
  = weighted_var v1 (WVec w) dof + weighted_var v2 (WVec w) dof
    + 2 * weighted_cov v1 v2 (WVec w) (WVec w) dof.
Proof. exact (var_sum v1 v2 w dof). Qed.
Print Assumptions C02_var_sum.

(* The covariance with a degrees-of-freedom correction, in closed form. *)
Theorem C02_cov_formula v1 v2 w dof :
  length w = length v1 -> length w = length v2 -> positive w ->
  let m v := rsum (map2 Rmult w v) / rsum w in
  weighted_cov v1 v2 (WVec w) (WVec w) dof
  = sumn (length w) (fun i => nth i w 0 * (nth i v1 0 - m v1) * (nth i v2 0 - m v2))
    / (rsum w - dof).
Proof. exact (cov_formula v1 v2 w dof). Qed.
Print Assumptions C02_cov_formula.

Example C02_case :
  positive [1; 3] /\ weighted_mean [2; 6] (WVec [1; 3]) = 5
  /\ weighted_var [2; 6] (WVec [1; 3]) 0 = 3.
Proof. exact stats_case. Qed.

(* ================================================================== C03 *)
Theorem C03_error_iff argsort values qs sw vs os :
  wq_pre argsort values sw vs os ->
  (weighted_quantile argsort values qs sw vs os = Err ValueError
     <-> exists q, In q qs /\ (q < 0 \/ 1 < q))
  /\ ((forall q, In q qs -> 0 <= q <= 1) ->
      exists rs, weighted_quantile argsort values qs sw vs os = Ok rs
                 /\ length rs = length qs).
Proof. exact (wq_error argsort values qs sw vs os). Qed.
Print Assumptions C03_error_iff.

Theorem C03_between argsort values qs sw vs os rs lo hi :
  wq_pre argsort values sw vs os ->
  weighted_quantile argsort values qs sw vs os = Ok rs ->
  (forall x, In x values -> lo <= x <= hi) ->
  forall r, In r rs -> lo <= r <= hi.
Proof. exact (wq_bounds argsort values qs sw vs os rs lo hi). Qed.
Print Assumptions C03_between.

Theorem C03_monotone argsort values qs sw vs os rs i j qi qj ri rj :
  wq_pre argsort values sw vs os ->
  weighted_quantile argsort values qs sw vs os = Ok rs ->
  nth_error qs i = Some qi -> nth_error qs j = Some qj ->
  nth_error rs i = Some ri -> nth_error rs j = Some rj ->
  qi <= qj -> ri <= rj.
Proof. exact (wq_mono argsort values qs sw vs os rs i j qi qj ri rj). Qed.
Print Assumptions C03_monotone.

(* Shifting all values shifts the quantiles, provided the sort orders the
   shifted values in the same way. *)
Theorem C03_shift argsort values qs sw vs os c :
  wq_pre argsort values sw vs os ->
  (vs = false -> argsort (map (fun x => x + c) values) = argsort values) ->
  weighted_quantile argsort (map (fun x => x + c) values) qs sw vs os
  = rmap (map (fun r => r + c)) (weighted_quantile argsort values qs sw vs os).
Proof. exact (wq_shift argsort values qs sw vs os c). Qed.
Print Assumptions C03_shift.

(* The returned number exactly: the values are placed at their weight shares
   in sorted order [idx]; between two neighbours the quantile is linear, and it
   is constant beyond the first and the last. *)
Theorem C03_value argsort values sw vs q :
  wq_pre argsort values sw vs false -> 0 <= q <= 1 ->
  let idx := if vs then range (length values) else argsort values in
  let w := weights_of values sw in
  let n := length values in
  let wq := weighted_quantile argsort values [q] sw vs false in
  (q <= weight_share w idx 0 -> wq = Ok [nth (nth 0 idx 0%nat) values 0]) /\
  (weight_share w idx (n - 1) <= q -> wq = Ok [nth (nth (n - 1) idx 0%nat) values 0]) /\
  (forall i, (i + 1 < n)%nat ->
     let a := weight_share w idx i in let b := weight_share w idx (i + 1) in
     let va := nth (nth i idx 0%nat) values 0 in
     let vb := nth (nth (i + 1) idx 0%nat) values 0 in
     a < b /\ (a <= q <= b -> wq = Ok [va + (vb - va) * ((q - a) / (b - a))])).
Proof. exact (wq_values argsort values sw vs q). Qed.
Print Assumptions C03_value.

Example C03_case :
  wq_pre (fun _ => [1; 0; 2]%nat) [5; 3; 9] (Some [1; 2; 1]) false false.
Proof. exact wq_case. Qed.

(* ================================================================== C04 *)
Theorem C04_DxSP d sp :
  csc_wf sp -> length d = s_nr sp ->
  exists p, DxSP (DVec d) sp = Ok p /\ csc_wf p
            /\ mat_eq (dense p) (matmul (diagm d) (dense sp)).
Proof. exact (DxSP_matmul d sp). Qed.
Print Assumptions C04_DxSP.

Theorem C04_SPxD d sp :
  length d = s_nc sp ->
  exists p, SPxD sp (DVec d) = Ok p /\ mat_eq p (matmul (dense sp) (diagm d)).
Proof. exact (SPxD_matmul d sp). Qed.
Print Assumptions C04_SPxD.

Theorem C04_DxM d m :
  length d = nr m -> exists p, DxM (DVec d) m = Ok p /\ mat_eq p (matmul (diagm d) m).
Proof. exact (DxM_matmul d m). Qed.
Print Assumptions C04_DxM.

Theorem C04_MxD d m :
  length d = nc m -> exists p, MxD m (DVec d) = Ok p /\ mat_eq p (matmul m (diagm d)).
Proof. exact (MxD_matmul d m). Qed.
Print Assumptions C04_MxD.

(* A single number acts as a scalar multiple, whichever shortcut is taken. *)
Theorem C04_scalar c m sp :
  csc_wf sp ->
  let times x := mkmat (nr x) (nc x) (fun i j => c * ent x i j) in
  (exists p, DxM (DScalar c) m = Ok p /\ mat_eq p (times m)) /\
  (exists p, MxD m (DScalar c) = Ok p /\ mat_eq p (times m)) /\
  (exists p, DxSP (DScalar c) sp = Ok p /\ mat_eq (dense p) (times (dense sp))) /\
  (exists p, SPxD sp (DScalar c) = Ok p /\ mat_eq p (times (dense sp))).
Proof. exact (scalar_products c m sp). Qed.
Print Assumptions C04_scalar.

(* A layout with unsorted, repeated row indices. *)
Example C04_case :
  let sp := mkcsc 3 2 [1; 2; 3; 4] [2; 0; 0; 1]%nat [0; 3; 4]%nat in
  csc_wf sp /\ ent (dense sp) 0 0 = 5.
Proof. exact csc_case. Qed.

(* ================================================================== C05 *)
Theorem C05_diag_of_prod m1 m2 fuel :
  nc m1 = nr m2 -> nr m1 = nc m2 ->
  exists l, diag_of_prod (S (S fuel)) m1 m2 = Ok l /\ length l = nr m1
    /\ forall i, (i < nr m1)%nat -> nth_error l i = Some (ent (matmul m1 m2) i i).
Proof. exact (diag_prod m1 m2 fuel). Qed.
Print Assumptions C05_diag_of_prod.

Theorem C05_terminates m1 m2 fuel :
  diag_of_prod (S (S fuel)) m1 m2 <> Err OutOfFuel.
Proof. exact (diag_of_prod_terminates m1 m2 fuel). Qed.
Print Assumptions C05_terminates.

(* With unequal inner dimensions (which the function accepts) the excess
   columns or rows are ignored. *)
Theorem C05_excess m1 m2 fuel :
  nr m1 = nc m2 ->
  exists l, diag_of_prod (S (S fuel)) m1 m2 = Ok l /\ length l = nr m1
    /\ forall i, (i < nr m1)%nat ->
         nth_error l i
         = Some (sumn (Nat.min (nc m1) (nr m2)) (fun k => ent m1 i k * ent m2 k i)).
Proof. exact (diag_of_prod_cut m1 m2 fuel). Qed.
Print Assumptions C05_excess.

Example C05_case :
  let m1 := mkmat 2 3 (fun i j => INR (i + j)) in
  let m2 := mkmat 3 2 (fun i j => INR (2 * i + j)) in
  nc m1 = nr m2 /\ nr m1 = nc m2 /\ ent (matmul m1 m2) 1 1 = 22.
Proof. exact diag_case. Qed.

(* ================================================================== C06 *)
Theorem C06_logsumexp a :
  a <> [] -> logsumexp a = Ok (ln (rsum (map exp a))).
Proof. exact (logsumexp_spec a). Qed.
Print Assumptions C06_logsumexp.

Theorem C06_no_overflow a :
  a <> [] -> exists M, In M a /\ (forall y, In y a -> exp (y - M) <= 1)
    /\ logsumexp a = Ok (ln (rsum (map (fun y => exp (y - M)) a)) + M).
Proof. exact (logsumexp_no_overflow a). Qed.
Print Assumptions C06_no_overflow.

Theorem C06_posterior lp :
  lp <> [] ->
  exists q, posterior lp = Ok q /\ length q = length lp
    /\ (forall k y, nth_error lp k = Some y ->
          nth_error q k = Some (exp y / rsum (map exp lp)))
    /\ (forall x, In x q -> 0 < x) /\ rsum q = 1.
Proof. exact (posterior_spec lp). Qed.
Print Assumptions C06_posterior.

Theorem C06_posterior_shift lp c :
  posterior (map (fun y => y + c) lp) = posterior lp.
Proof. exact (posterior_shift lp c). Qed.
Print Assumptions C06_posterior_shift.

Example C06_case : [-1000; 3; 3] <> [] :> list R.
Proof. discriminate. Qed.

(* ================================================================== C07 *)
Theorem C07_error_iff x mu sd var :
  lognormpdf x mu sd var = Err ValueError
  <-> (sd = None /\ var = None) \/ (sd <> None /\ var <> None).
Proof. exact (lognormpdf_error x mu sd var). Qed.
Print Assumptions C07_error_iff.

Theorem C07_density x mu s :
  0 < s ->
  lognormpdf x mu (Some s) None = Ok (ln (normal_density x mu s))
  /\ lognormpdf x mu None (Some (s ^ 2)) = Ok (ln (normal_density x mu s)).
Proof. exact (lognormpdf_density x mu s). Qed.
Print Assumptions C07_density.

Theorem C07_fast x mu sd G :
  length x = length G -> length mu = length sd ->
  (forall g, In g G -> (g < length sd)%nat) ->
  exists l, fast_lognormpdf x mu sd G = Ok l /\ length l = length x
    /\ forall i xi g m s, nth_error x i = Some xi -> nth_error G i = Some g ->
         nth_error mu g = Some m -> nth_error sd g = Some s ->
         exists r, nth_error l i = Some r /\ lognormpdf xi m (Some s) None = Ok r.
Proof. exact (fast_lognormpdf_spec x mu sd G). Qed.
Print Assumptions C07_fast.

Example C07_case :
  length [1; 2; 3] = length [1; 0; 1]%nat
  /\ (forall g, In g [1; 0; 1]%nat -> (g < length [1; 2])%nat).
Proof. split; [reflexivity|]. simpl. intros g H. intuition lia. Qed.

(* ================================================================== C08 *)
(* The claim: every row carries the indices of its own cell. *)
Definition melt_labels_right {V} (shape : list nat) (a : list nat -> V) : Prop :=
  forall idx v, In (idx, v) (melt shape a) -> v = a idx.

(* It fails for a 2 x 3 array: the row with value a[0, 1] is labelled (1, 0). *)
Theorem C08_melt_refuted :
  exists (shape : list nat) (a : list nat -> nat), ~ melt_labels_right shape a.
Proof. exact melt_wrong. Qed.
Print Assumptions C08_melt_refuted.

(* It fails for every array with two leading dimensions of at least 2 (and no
   empty one) whose cells are pairwise different. *)
Theorem C08_melt_refuted_general n0 n1 rest :
  (2 <= n0)%nat -> (2 <= n1)%nat -> (forall n, In n rest -> (1 <= n)%nat) ->
  ~ melt_labels_right (n0 :: n1 :: rest) (fun idx => idx).
Proof. exact (melt_wrong_general n0 n1 rest). Qed.
Print Assumptions C08_melt_refuted_general.

(* It holds for arrays of at most one dimension and for arrays whose first or
   second dimension is 1, and then each cell occurs once, in order. *)
Theorem C08_melt_partial {V} shape (a : list nat -> V) :
  (length shape <= 1 \/ nth 0 shape 0 = 1 \/ nth 1 shape 0 = 1)%nat ->
  melt_labels_right shape a
  /\ map fst (melt shape a) = cart shape.
Proof. exact (melt_right shape a). Qed.
Print Assumptions C08_melt_partial.

Example C08_case :
  melt [1; 2]%nat (fun idx => idx) = [([0; 0], [0; 0]); ([0; 1], [0; 1])]%nat.
Proof. reflexivity. Qed.
