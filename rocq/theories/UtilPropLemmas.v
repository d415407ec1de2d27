(* Glue between the util lemmas and the statements of UtilProps.v. *)
From Verif Require Import Base BaseLemmas UtilModel UtilSpec UtilListLemmas
  UtilStatLemmas UtilQuantLemmas UtilNumLemmas.
From Coq Require Import Permutation Sorted.
Local Open Scope R_scope.

Lemma scramble_ok {A} (xs : list A) :
  exists ys, scramble xs = Ok ys /\ Permutation ys xs /\ length ys = length xs
             /\ unscramble ys = xs.
Proof.
  destruct (scramble_spec xs) as [ys [E [Hl _]]]. exists ys.
  pose proof (unscramble_scramble xs ys E) as U. split; [exact E|].
  split; [|split; assumption].
  apply Permutation_sym. rewrite <- U at 1. apply unscramble_perm.
Qed.

Lemma scramble_results {J B} (run : J -> B) (jobs : list J) scrambled :
  scramble jobs = Ok scrambled -> unscramble (map run scrambled) = map run jobs.
Proof.
  intros E. rewrite unscramble_map. now rewrite (unscramble_scramble _ _ E).
Qed.

Lemma positive_scale w c : positive w -> 0 < c -> positive (map (fun x => c * x) w).
Proof.
  intros Hw Hc x Hx. apply in_map_iff in Hx as [y [<- Hy]].
  apply Rmult_lt_0_compat; [exact Hc|now apply Hw].
Qed.

Lemma scale_weights v1 v2 w c :
  v1 <> [] -> length w = length v1 -> length w = length v2 -> positive w -> 0 < c ->
  let w' := WVec (map (fun x => c * x) w) in
  weighted_mean v1 w' = weighted_mean v1 (WVec w)
  /\ weighted_var v1 w' 0 = weighted_var v1 (WVec w) 0
  /\ weighted_cov v1 v2 w' w' 0 = weighted_cov v1 v2 (WVec w) (WVec w) 0.
Proof.
  intros Hv H1 H2 Hw Hc w'. split; [|split].
  - now apply mean_scale_weights.
  - unfold w'. rewrite !var_is_cov.
    + now apply cov_scale_weights.
    + exact H1.
    + exact Hw.
    + now rewrite map_length.
    + now apply positive_scale.
  - now apply cov_scale_weights.
Qed.

Lemma shift_all v1 v2 w c d dof :
  v1 <> [] -> length w = length v1 -> length w = length v2 -> positive w ->
  weighted_mean (map (fun x => x + c) v1) (WVec w) = weighted_mean v1 (WVec w) + c
  /\ weighted_var (map (fun x => x + c) v1) (WVec w) dof = weighted_var v1 (WVec w) dof
  /\ weighted_cov (map (fun x => x + c) v1) (map (fun x => x + d) v2)
       (WVec w) (WVec w) dof
     = weighted_cov v1 v2 (WVec w) (WVec w) dof.
Proof.
  intros Hv H1 H2 Hw. split; [|split].
  - now apply mean_shift.
  - now apply var_shift.
  - now apply cov_shift.
Qed.

Lemma cov_formula v1 v2 w dof :
  length w = length v1 -> length w = length v2 -> positive w ->
  let m v := rsum (map2 Rmult w v) / rsum w in
  weighted_cov v1 v2 (WVec w) (WVec w) dof
  = sumn (length w) (fun i => nth i w 0 * (nth i v1 0 - m v1) * (nth i v2 0 - m v2))
    / (rsum w - dof).
Proof.
  intros H1 H2 Hw m. rewrite cov_vec; auto. intros; now apply Rlt_le, Hw.
Qed.

Lemma stats_case :
  positive [1; 3] /\ weighted_mean [2; 6] (WVec [1; 3]) = 5
  /\ weighted_var [2; 6] (WVec [1; 3]) 0 = 3.
Proof.
  assert (E : weighted_mean [2; 6] (WVec [1; 3]) = 5)
    by (unfold weighted_mean; cbn [map2 rsum]; field).
  split; [|split; [exact E|]].
  - intros x [<-|[<-|[]]]; lra.
  - unfold weighted_var. rewrite E. cbn [map2 rsum]. field.
Qed.

Lemma wq_case : wq_pre (fun _ => [1; 0; 2]%nat) [5; 3; 9] (Some [1; 2; 1]) false false.
Proof.
  split; [discriminate|]. split; [reflexivity|]. split.
  - intros x H. simpl in H. intuition lra.
  - split; [|discriminate]. split.
    + apply perm_swap.
    + simpl. repeat constructor; lra.
Qed.

Lemma scalar_products c m sp :
  csc_wf sp ->
  let times x := mkmat (nr x) (nc x) (fun i j => c * ent x i j) in
  (exists p, DxM (DScalar c) m = Ok p /\ mat_eq p (times m)) /\
  (exists p, MxD m (DScalar c) = Ok p /\ mat_eq p (times m)) /\
  (exists p, DxSP (DScalar c) sp = Ok p /\ mat_eq (dense p) (times (dense sp))) /\
  (exists p, SPxD sp (DScalar c) = Ok p /\ mat_eq p (times (dense sp))).
Proof.
  intros Hw times.
  destruct (DxM_scalar c m) as (p1 & E1 & A1 & B1 & C1).
  destruct (MxD_scalar c m) as (p2 & E2 & A2 & B2 & C2).
  destruct (DxSP_scalar c sp Hw) as (p3 & E3 & A3 & B3 & C3).
  destruct (SPxD_scalar c sp) as (p4 & E4 & A4 & B4 & C4).
  repeat match goal with |- _ /\ _ => split end.
  - exists p1. split; [exact E1|]. repeat split; auto. intros; apply C1.
  - exists p2. split; [exact E2|]. repeat split; auto. intros. cbn [times ent].
    rewrite C2. lra.
  - exists p3. split; [exact E3|]. split; [exact A3|]. split; [exact B3|].
    intros i j Hi Hj. apply C3; lia.
  - exists p4. split; [exact E4|]. repeat split; auto. intros. cbn [times ent].
    rewrite C4. lra.
Qed.

Lemma csc_case :
  let sp := mkcsc 3 2 [1; 2; 3; 4] [2; 0; 0; 1]%nat [0; 3; 4]%nat in
  csc_wf sp /\ ent (dense sp) 0 0 = 5.
Proof.
  split.
  - split; [reflexivity|]. split; [reflexivity|]. split.
    + intros i Hi; simpl in *; intuition lia.
    + intros j Hj. simpl in *. destruct j as [|[|j]]; simpl; lia.
  - cbn. lra.
Qed.

Lemma diag_prod m1 m2 fuel :
  nc m1 = nr m2 -> nr m1 = nc m2 ->
  exists l, diag_of_prod (S (S fuel)) m1 m2 = Ok l /\ length l = nr m1
    /\ forall i, (i < nr m1)%nat -> nth_error l i = Some (ent (matmul m1 m2) i i).
Proof.
  intros H1 H2. apply diag_of_prod_spec; [exact H1|exact H2|lia].
Qed.

Lemma diag_case :
  let m1 := mkmat 2 3 (fun i j => INR (i + j)) in
  let m2 := mkmat 3 2 (fun i j => INR (2 * i + j)) in
  nc m1 = nr m2 /\ nr m1 = nc m2 /\ ent (matmul m1 m2) 1 1 = 22.
Proof. split; [reflexivity|]. split; [reflexivity|]. cbn. lra. Qed.

Lemma logsumexp_no_overflow a :
  a <> [] -> exists M, In M a /\ (forall y, In y a -> exp (y - M) <= 1)
    /\ logsumexp a = Ok (ln (rsum (map (fun y => exp (y - M)) a)) + M).
Proof.
  intros Ha. destruct (logsumexp_safe a Ha) as [M [H1 [H2 H3]]].
  exists M. split; [exact H1|]. split; [|exact H3].
  intros y Hy. rewrite <- exp_0. specialize (H2 y Hy).
  destruct (Rle_lt_or_eq_dec _ _ H2) as [H|H].
  - apply Rlt_le, exp_increasing, H.
  - rewrite H. lra.
Qed.

Lemma lognormpdf_density x mu s :
  0 < s ->
  lognormpdf x mu (Some s) None = Ok (ln (normal_density x mu s))
  /\ lognormpdf x mu None (Some (s ^ 2)) = Ok (ln (normal_density x mu s)).
Proof.
  intros Hs. split; [now apply lognormpdf_sd|].
  rewrite lognormpdf_var by exact Hs. now apply lognormpdf_sd.
Qed.

(* ---- melt ---- *)
Lemma melt_wrong :
  exists (shape : list nat) (a : list nat -> nat),
    ~ (forall idx v, In (idx, v) (melt shape a) -> v = a idx).
Proof.
  exists [2; 3]%nat, (fun idx => match idx with [i; j] => 3 * i + j | _ => 0 end)%nat.
  intros H.
  specialize (H [1; 0]%nat 1%nat). cbn in H.
  assert (1 = 3)%nat by (apply H; right; left; reflexivity). discriminate.
Qed.

Lemma in_combine_nth {A B} (l : list A) (m : list B) i a b :
  nth_error l i = Some a -> nth_error m i = Some b -> In (a, b) (combine l m).
Proof.
  revert m i; induction l as [|x l IH]; intros [|y m] [|i]; simpl; intros; try discriminate.
  - left; congruence.
  - right; eapply IH; eassumption.
Qed.

Lemma melt_right {V} shape (a : list nat -> V) :
  (length shape <= 1 \/ nth 0 shape 0 = 1 \/ nth 1 shape 0 = 1)%nat ->
  (forall idx v, In (idx, v) (melt shape a) -> v = a idx)
  /\ map fst (melt shape a) = cart shape.
Proof.
  intros H. rewrite (melt_flat_ok shape a H). split.
  - intros idx v Hin. apply in_map_iff in Hin as [i [E _]]. congruence.
  - rewrite map_map. cbn [fst]. apply map_id.
Qed.

(* Position [length (cart rest)] holds index (0, 1, 0...) in C order, but the
   label (1, 0, ...). *)
Lemma cart_block n s k idx :
  (k < n)%nat -> forall i, nth_error (cart s) i = Some idx ->
  nth_error (cart (n :: s)) (k * length (cart s) + i)%nat = Some (k :: idx).
Proof.
  intros Hk i Hi. cbn [cart].
  assert (G : forall m b, (k < m)%nat ->
    nth_error (flat_map (fun j => map (cons j) (cart s)) (seq b m))
      (k * length (cart s) + i)%nat = Some ((b + k)%nat :: idx)).
  { clear Hk n. revert k. intros k m. revert k. induction m as [|m IH]; intros k b Hk; [lia|].
    simpl. destruct k as [|k].
    - simpl. rewrite nth_error_app1.
      + rewrite nth_error_map, Hi. simpl. now rewrite Nat.add_0_r.
      + rewrite map_length. apply nth_error_Some. congruence.
    - rewrite nth_error_app2 by (rewrite map_length; nia).
      rewrite map_length. replace (S k * length (cart s) + i - length (cart s))%nat
        with (k * length (cart s) + i)%nat by nia.
      rewrite IH by lia. do 2 f_equal. lia. }
  unfold range. rewrite (G n 0%nat Hk). reflexivity.
Qed.

Lemma cart_first s : (forall n, In n s -> (1 <= n)%nat) ->
  exists z, nth_error (cart s) 0 = Some z.
Proof.
  induction s as [|n s IH]; intros H; [simpl; eauto|].
  destruct IH as [z Hz]; [intros; apply H; now right|].
  exists (0%nat :: z). assert (1 <= n)%nat by (apply H; now left).
  apply (cart_block n s 0 z) with (i := 0%nat); [lia|exact Hz].
Qed.

Lemma melt_wrong_general n0 n1 rest :
  (2 <= n0)%nat -> (2 <= n1)%nat -> (forall n, In n rest -> (1 <= n)%nat) ->
  ~ (forall idx v, In (idx, v) (melt (n0 :: n1 :: rest) (fun idx : list nat => idx)) -> v = idx).
Proof.
  intros H0 H1 Hr H. destruct (cart_first rest Hr) as [z Hz].
  assert (A1 := cart_block n1 rest 1 z H1 0 Hz).
  assert (A0 := cart_block n0 (n1 :: rest) 0 _ ltac:(lia) _ A1).
  assert (B1 := cart_block n0 rest 1 z H0 0 Hz).
  assert (B0 := cart_block n1 (n0 :: rest) 0 _ ltac:(lia) _ B1).
  rewrite !Nat.mul_0_l, !Nat.add_0_l in A0, B0.
  assert (Hin : In (swap01 (0 :: 1 :: z)%nat, (0 :: 1 :: z)%nat)
                   (melt (n0 :: n1 :: rest) (fun idx => idx))).
  { unfold melt. change (swap01 (n0 :: n1 :: rest)) with (n1 :: n0 :: rest).
    eapply in_combine_nth.
    - rewrite nth_error_map, B0. reflexivity.
    - rewrite map_id. exact A0. }
  specialize (H _ _ Hin). discriminate.
Qed.
