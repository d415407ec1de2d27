(* Shifts, weights, the caller's data and expectations for the Borovickova-Shimer estimator. *)
From Coq Require Import Sorted Permutation.
From Verif Require Import Base BaseLemmas UtilModel BsModel BsSpec BsLemmas BsSumLemmas BsClosedLemmas BsPropLemmas.
Local Open Scope R_scope.

(* ---- C73 ---- *)
Lemma c73_shift sort_j sort_rows has_w alt weighted l c r after r' after' :
  is_sort_j sort_j -> sorted_by bi l -> l <> [] -> two_obs bi l -> two_obs bj l -> (weighted && has_w)%bool = false ->
  fit sort_j sort_rows true has_w alt weighted l = Ok (r, after) ->
  fit sort_j sort_rows true has_w alt weighted (map (add_wage c) l) = Ok (r', after') ->
  r_mean r' = r_mean r + c /\ r_var_y r' = r_var_y r /\ r_var_lambda r' = r_var_lambda r /\
  r_var_mu r' = r_var_mu r /\ r_cov r' = r_cov r /\ r_corr r' = r_corr r.
Proof.
  intros S So N Ti Tj W E E'.
  pose proof (appearance_lists bi l) as Lw. pose proof (appearance_lists bj l) as Lf.
  destruct (c48_unweighted sort_j sort_rows has_w alt weighted l _ _ S So Lw Lf W) as (r0 & a0 & E0 & (A & B & C & D & F & G)).
  destruct (c48_unweighted sort_j sort_rows has_w alt weighted (map (add_wage c) l) _ _ S (sorted_map bi (add_wage c) l (fun _ => eq_refl) So)
    (lists_map bi (add_wage c) _ l (fun _ => eq_refl) Lw) (lists_map bj (add_wage c) _ l (fun _ => eq_refl) Lf) W) as (r1 & a1 & E1 & (A' & B' & C' & D' & F' & G')).
  rewrite E0 in E. rewrite E1 in E'. injection E as <- <-. injection E' as <- <-.
  rewrite A, B, C, D, F, G, A', B', C', D', F', G'. rewrite !pair_variance_shift, pair_covariance_shift by auto.
  assert (M : average by_ (map (add_wage c) l) = average by_ l + c) by (rewrite average_map; cbn [add_wage by_]; apply average_plus; auto).
  repeat split; auto. rewrite M, average_map. cbn [add_wage by_]. apply average_ext. intros; f_equal; ring.
Qed.

(* ---- C74 ---- *)
Lemma waverage_one {A} (w f : A -> R) l : (forall x, In x l -> w x = 1) -> waverage w f l = average f l.
Proof.
  intros H. unfold waverage, average. rewrite (rsum_map_ext (fun x => w x * f x) f) by (intros x I; rewrite H by auto; ring).
  rewrite (rsum_map_ext w (fun _ => 1)) by auto. rewrite rsum_map_const, Rmult_1_r. reflexivity.
Qed.
Lemma in_obs key v l r : In r (obs key v l) -> In r l.
Proof. intros I. apply filter_In in I. tauto. Qed.
Lemma in_remove {A} i (l : list A) x : In x (remove_at i l) -> In x l.
Proof.
  unfold remove_at. intros I. rewrite <- (firstn_skipn i l). apply in_app_or in I. apply in_or_app. destruct I as [I|I]; auto.
  right. revert I. generalize i. clear i. induction l as [|a l IH]; intros i I; destruct i; cbn in *; auto.
Qed.
Lemma in_others key p l r : In r (others key p l) -> In r l.
Proof. unfold others. destruct (nth_error l p); [|intros []]. intros I. apply in_obs in I. eapply in_remove; eauto. Qed.
Lemma in_pairs {A} (l : list A) p : In p (distinct_pairs l) -> In (fst p) l /\ In (snd p) l.
Proof.
  unfold distinct_pairs. rewrite in_flat_map. intros (i & _ & I). destruct (nth_error l i) eqn:E; [|contradiction].
  apply in_map_iff in I. destruct I as (y & <- & I). split; [eapply nth_error_In; eauto|eapply in_remove; eauto].
Qed.

Definition unit_weights (l : list brow) : Prop := forall r, In r l -> bw r = 1.

Lemma pair_variance_unit key vs l : unit_weights l -> pair_variance_w key vs l = pair_variance key vs l.
Proof.
  intros U. unfold pair_variance_w, pair_variance. rewrite (waverage_one bw by_ l U).
  rewrite (rsum_map_ext bw (fun _ => 1) l U), rsum_map_const, Rmult_1_r. f_equal. f_equal. apply rsum_map_ext. intros v _.
  rewrite waverage_one.
  - rewrite (rsum_map_ext bw (fun _ => 1)) by (intros r I; apply U; eapply in_obs; eauto). rewrite rsum_map_const, Rmult_1_r. reflexivity.
  - intros p I. apply in_pairs in I. destruct I as [I J]. apply in_obs in I. apply in_obs in J. rewrite (U _ I), (U _ J), sqrt_1. ring.
Qed.
Lemma pair_covariance_unit l : unit_weights l -> pair_covariance_w l = pair_covariance l.
Proof.
  intros U. unfold pair_covariance_w, pair_covariance. rewrite (waverage_one bw by_ l U). f_equal. rewrite waverage_one.
  - apply average_ext. intros p I. rewrite !waverage_one; auto; intros r J; apply U; eapply in_others; eauto.
  - intros p I. apply in_seq in I. destruct (nth_error l p) eqn:E; [apply U; eapply nth_error_In; eauto|]. apply nth_error_None in E. lia.
Qed.

Lemma map2_same {A} (f g : A -> R) (h : R -> R -> R) l : map2 h (map f l) (map g l) = map (fun x => h (f x) (g x)) l.
Proof. induction l; cbn; f_equal; auto. Qed.

Lemma var_y_weighted l : var_y true (map weigh l) =
  waverage bw (fun r => (bw r * by_ r - waverage bw (fun s => bw s * by_ s) l) ^ 2) l.
Proof.
  unfold var_y, weighted_var, weighted_mean. rewrite !map_map. cbn [weigh by_ bw]. rewrite !map2_same. unfold waverage. rewrite Rminus_0_r. reflexivity.
Qed.

Lemma unit_positive l : unit_weights l -> positive_weights l.
Proof. intros U r I. rewrite (U r I). lra. Qed.

Lemma c74_unit sort_j sort_rows has_w l r after r' after' :
  is_sort_j sort_j -> sorted_by bi l -> unit_weights l ->
  fit sort_j sort_rows true has_w false false l = Ok (r, after) ->
  fit sort_j sort_rows true true false true l = Ok (r', after') -> r' = r.
Proof.
  intros S So U E E'.
  pose proof (appearance_lists bi l) as Lw. pose proof (appearance_lists bj l) as Lf.
  destruct (c48_unweighted sort_j sort_rows has_w false false l _ _ S So Lw Lf eq_refl) as (r0 & a0 & E0 & (A & B & C & D & F & G)).
  destruct (c48_weighted sort_j sort_rows l _ _ S So Lw Lf (unit_positive l U)) as (r1 & a1 & E1 & (B' & C' & D' & F' & G')).
  rewrite E0 in E. rewrite E1 in E'. injection E as <- <-. injection E' as <- <-.
  rewrite pair_variance_unit in C' by auto. rewrite pair_variance_unit in D' by auto.
  rewrite !pair_variance_unit, pair_covariance_unit in G' by auto. rewrite pair_covariance_unit in F' by auto. rewrite (waverage_one bw by_ l U) in B'.
  assert (V : r_var_y r1 = average (fun x => (by_ x - average by_ l) ^ 2) l).
  { unfold fit in E1. cbn [andb] in E1. injection E1 as <- _. unfold fit_standard. cbn [r_var_y]. rewrite var_y_weighted.
    rewrite waverage_one by auto. apply average_ext. intros x I. rewrite (U x I). rewrite waverage_one by auto.
    rewrite (average_ext (fun s => bw s * by_ s) by_) by (intros s J; rewrite (U s J); ring). f_equal. ring. }
  destruct r0, r1. cbn in *. congruence.
Qed.

Lemma waverage_scale {A} (w f : A -> R) k l : k <> 0 -> waverage (fun x => k * w x) f l = waverage w f l.
Proof.
  intros K. unfold waverage. rewrite (rsum_map_ext _ (fun x => k * (w x * f x))) by (intros; ring). rewrite !rsum_map_scal.
  unfold Rdiv. rewrite Rinv_mult. replace (k * rsum (map (fun x => w x * f x) l) * (/ k * / rsum (map w l)))
    with ((k * / k) * (rsum (map (fun x => w x * f x) l) * / rsum (map w l))) by ring. rewrite Rinv_r by auto. ring.
Qed.
Lemma waverage_map {A B} (g : A -> B) w f l : waverage w f (map g l) = waverage (fun x => w (g x)) (fun x => f (g x)) l.
Proof. unfold waverage. rewrite !map_map. reflexivity. Qed.
Lemma waverage_ext {A} (w w' f f' : A -> R) l : (forall x, In x l -> w x = w' x) -> (forall x, In x l -> f x = f' x) -> waverage w f l = waverage w' f' l.
Proof.
  intros H K. unfold waverage. rewrite (rsum_map_ext w w' l H). f_equal. apply rsum_map_ext. intros x I. rewrite H, K; auto.
Qed.

Lemma pair_variance_scale key vs l k : (forall r, key (scale_weight k r) = key r) -> 0 < k -> positive_weights l ->
  pair_variance_w key vs (map (scale_weight k) l) = pair_variance_w key vs l.
Proof.
  intros H K W. unfold pair_variance_w. rewrite waverage_map. cbn [scale_weight bw by_]. rewrite waverage_scale by lra.
  rewrite map_map. cbn [scale_weight bw]. rewrite rsum_map_scal.
  rewrite (rsum_map_ext _ (fun v => k * (rsum (map bw (obs key v l)) * waverage (fun p => sqrt (bw (fst p)) * sqrt (bw (snd p)))
     (fun p => by_ (fst p) * by_ (snd p)) (distinct_pairs (obs key v l))))).
  - rewrite rsum_map_scal. f_equal. unfold Rdiv. rewrite Rinv_mult. set (a := rsum _). set (b := / rsum _). field. lra.
  - intros v _. rewrite obs_map by auto. rewrite map_map, pairs_map, waverage_map. cbn [scale_weight bw by_ fst snd]. rewrite rsum_map_scal.
    rewrite Rmult_assoc. do 2 f_equal.
    rewrite <- (waverage_scale (fun p : brow * brow => sqrt (bw (fst p)) * sqrt (bw (snd p))) _ (sqrt k * sqrt k)).
    + apply waverage_ext; auto. intros p I. apply in_pairs in I. destruct I as [I J]. apply in_obs in I. apply in_obs in J.
      pose proof (W _ I). pose proof (W _ J). rewrite !sqrt_mult by lra. ring.
    + rewrite sqrt_sqrt by lra. lra.
Qed.
Lemma pair_covariance_scale l k : 0 < k -> pair_covariance_w (map (scale_weight k) l) = pair_covariance_w l.
Proof.
  intros K. unfold pair_covariance_w. rewrite waverage_map. cbn [scale_weight bw by_]. rewrite waverage_scale by lra.
  rewrite map_length. f_equal.
  rewrite <- (waverage_scale (fun p => match nth_error l p with Some r => bw r | None => 0 end) _ k) by lra.
  apply waverage_ext.
  - intros p _. rewrite nth_error_map. destruct (nth_error l p); cbn; ring.
  - intros p _. rewrite !others_map by auto. rewrite !waverage_map. cbn [scale_weight bw by_]. rewrite !waverage_scale by lra. reflexivity.
Qed.

Lemma c74_rescale sort_j sort_rows l k r after r' after' :
  is_sort_j sort_j -> sorted_by bi l -> positive_weights l -> 0 < k ->
  fit sort_j sort_rows true true false true l = Ok (r, after) ->
  fit sort_j sort_rows true true false true (map (scale_weight k) l) = Ok (r', after') ->
  r_mean r' = r_mean r /\ r_var_lambda r' = r_var_lambda r /\ r_var_mu r' = r_var_mu r /\ r_cov r' = r_cov r /\
  r_corr r' = r_corr r /\ r_var_y r' = k ^ 2 * r_var_y r.
Proof.
  intros S So W K E E'.
  pose proof (appearance_lists bi l) as Lw. pose proof (appearance_lists bj l) as Lf.
  assert (W' : positive_weights (map (scale_weight k) l)).
  { intros s I. apply in_map_iff in I. destruct I as (t & <- & I). cbn. pose proof (W t I). apply Rmult_lt_0_compat; auto. }
  assert (So' := sorted_map bi (scale_weight k) l (fun _ => eq_refl) So).
  destruct (c48_weighted sort_j sort_rows l _ _ S So Lw Lf W) as (r0 & a0 & E0 & (B & C & D & F & G)).
  destruct (c48_weighted sort_j sort_rows (map (scale_weight k) l) _ _ S So'
    (lists_map bi (scale_weight k) _ l (fun _ => eq_refl) Lw) (lists_map bj (scale_weight k) _ l (fun _ => eq_refl) Lf) W')
    as (r1 & a1 & E1 & (B' & C' & D' & F' & G')).
  rewrite E0 in E. rewrite E1 in E'. injection E as <- <-. injection E' as <- <-.
  rewrite pair_variance_scale in C' by auto. rewrite pair_variance_scale in D' by auto.
  rewrite !pair_variance_scale, pair_covariance_scale in G' by auto. rewrite pair_covariance_scale in F' by auto.
  rewrite waverage_map in B'. cbn [scale_weight bw by_] in B'. rewrite waverage_scale in B' by lra.
  split; [rewrite B, B'; reflexivity|]. split; [congruence|]. split; [congruence|]. split; [congruence|]. split; [rewrite G, G'; reflexivity|].
  unfold fit in E0, E1. cbn [andb] in E0, E1. injection E0 as <- _. injection E1 as <- _. unfold fit_standard. cbn [r_var_y].
  rewrite !var_y_weighted. rewrite !waverage_map. cbn [scale_weight bw by_]. rewrite !waverage_scale by lra.
  set (m := waverage bw (fun s => bw s * by_ s) l).
  assert (M : waverage bw (fun s => k * bw s * by_ s) l = k * m).
  { unfold m, waverage. rewrite (rsum_map_ext _ (fun x => k * (bw x * (bw x * by_ x)))) by (intros; ring). rewrite rsum_map_scal. unfold Rdiv. ring. }
  rewrite M. unfold waverage. rewrite (rsum_map_ext _ (fun x => k ^ 2 * (bw x * (bw x * by_ x - m) ^ 2))) by (intros; ring).
  rewrite rsum_map_scal. unfold Rdiv. ring.
Qed.
