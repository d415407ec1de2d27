(* The properties of the Borovickova-Shimer estimator in the form of the theorems. *)
From Coq Require Import Sorted Permutation.
From Verif Require Import Base BaseLemmas UtilModel BsModel BsSpec BsLemmas BsSumLemmas BsClosedLemmas.
Local Open Scope R_scope.

(* ---- C48 ---- *)
Definition closed_form (l : list brow) (ws fs : list nat) (r : bs_res) : Prop :=
  r_var_y r = average (fun x => (by_ x - average by_ l) ^ 2) l /\
  r_mean r = average by_ l /\
  r_var_lambda r = pair_variance bi ws l /\
  r_var_mu r = pair_variance bj fs l /\
  r_cov r = pair_covariance l /\
  r_corr r = pair_covariance l / sqrt (pair_variance bi ws l * pair_variance bj fs l).

Lemma var_y_unweighted l : var_y false l = average (fun x => (by_ x - average by_ l) ^ 2) l.
Proof. unfold var_y, weighted_var, weighted_mean, average. rewrite map_map, map_length, Rminus_0_r. reflexivity. Qed.

Lemma fit_closed sort_j l ws fs (alt : bool) : is_sort_j sort_j -> sorted_by bi l -> lists_units bi ws l -> lists_units bj fs l ->
  closed_form l ws fs (if alt then fit_alternative sort_j false l else fit_standard sort_j false l).
Proof.
  intros S So Lw Lf. pose proof (S l) as [P Sj]. unfold closed_form.
  assert (A : forall m, sigma_sq false bi l m = pair_variance bi ws l + average by_ l ^ 2 - m ^ 2).
  { intros m. rewrite (sigma_unweighted bi l l ws m So (Permutation_refl _) Lw). unfold pair_variance, unit_value. ring. }
  assert (B : forall m, sigma_sq false bj (sort_j l) m = pair_variance bj fs l + average by_ l ^ 2 - m ^ 2).
  { intros m. rewrite (sigma_unweighted bj (sort_j l) l fs m Sj P Lf). unfold pair_variance, unit_value. ring. }
  assert (C := cov_unweighted sort_j l S).
  assert (Q : average by_ (sort_j l) = average by_ l) by (apply average_perm; auto).
  assert (R1 : forall x y : R, x + y - y = x) by (intros; ring).
  destruct alt; unfold fit_alternative, fit_standard; cbn [r_var_y r_mean r_var_lambda r_var_mu r_cov r_corr].
  - rewrite !alt_y_bar_unweighted, Q. rewrite !alt_sigma_unweighted by auto. rewrite A, B, !R1.
    unfold alt_leave_out. unfold leave_out in C. rewrite C. fold (leave_out false).
    split; [apply var_y_unweighted|]. split; [field|]. split; [auto|]. split; [auto|].
    unfold pair_covariance. replace (average by_ l * average by_ l) with (average by_ l ^ 2) by ring. split; reflexivity.
  - rewrite !y_bar_unweighted. rewrite A, B, !R1, C.
    split; [apply var_y_unweighted|]. repeat split; reflexivity.
Qed.

Lemma c48_unweighted sort_j sort_rows has_w alt weighted l ws fs :
  is_sort_j sort_j -> sorted_by bi l -> lists_units bi ws l -> lists_units bj fs l -> (weighted && has_w)%bool = false ->
  exists r after, fit sort_j sort_rows true has_w alt weighted l = Ok (r, after) /\ closed_form l ws fs r.
Proof.
  intros S So Lw Lf W. unfold fit. rewrite W. eexists. eexists. split; [reflexivity|]. apply fit_closed; auto.
Qed.

Lemma c48_weighted sort_j sort_rows l ws fs :
  is_sort_j sort_j -> sorted_by bi l -> lists_units bi ws l -> lists_units bj fs l -> positive_weights l ->
  exists r after, fit sort_j sort_rows true true false true l = Ok (r, after) /\
    r_mean r = waverage bw by_ l /\
    r_var_lambda r = pair_variance_w bi ws l /\
    r_var_mu r = pair_variance_w bj fs l /\
    r_cov r = pair_covariance_w l /\
    r_corr r = pair_covariance_w l / sqrt (pair_variance_w bi ws l * pair_variance_w bj fs l).
Proof.
  intros S So Lw Lf W. unfold fit. eexists. eexists. split; [reflexivity|]. cbn [andb].
  unfold fit_standard. cbn [r_var_y r_mean r_var_lambda r_var_mu r_cov r_corr].
  pose proof (S (map weigh l)) as [P Sj]. rewrite (y_bar_weighted bi l (fun _ => eq_refl) W).
  rewrite (sigma_weighted bi (map weigh l) l ws _ (fun _ => eq_refl) (sorted_key_weigh bi l (fun _ => eq_refl) So) (Permutation_refl _) Lw).
  rewrite (sigma_weighted bj (sort_j (map weigh l)) l fs _ (fun _ => eq_refl) Sj P Lf).
  rewrite (cov_weighted sort_j l S). repeat split; reflexivity.
Qed.

(* ---- C73 ---- *)
Lemma obs_map key g v l : (forall r, key (g r) = key r) -> obs key v (map g l) = map g (obs key v l).
Proof.
  intros H. unfold obs. induction l as [|r l IH]; cbn; auto. rewrite H. destruct (key r =? v)%nat; cbn; f_equal; auto.
Qed.
Lemma lists_map key g vs l : (forall r, key (g r) = key r) -> lists_units key vs l -> lists_units key vs (map g l).
Proof.
  intros H [A B]. split; auto. intros v. rewrite B. split.
  - intros (r & I & E). exists (g r). split; [apply in_map; auto|rewrite H; auto].
  - intros (r & I & E). apply in_map_iff in I. destruct I as (s & <- & I). exists s. rewrite H in E. auto.
Qed.
Lemma sorted_map key g l : (forall r, key (g r) = key r) -> sorted_by key l -> sorted_by key (map g l).
Proof.
  intros H. induction 1 as [|r l A IH F]; cbn; constructor; auto. rewrite Forall_forall in *. intros s I.
  apply in_map_iff in I. destruct I as (t & <- & I). rewrite !H. auto.
Qed.
Lemma average_map {A B} (g : A -> B) f l : average f (map g l) = average (fun x => f (g x)) l.
Proof. unfold average. rewrite map_map, map_length. reflexivity. Qed.
Lemma average_plus {A} (f : A -> R) c l : l <> [] -> average (fun x => f x + c) l = average f l + c.
Proof.
  intros N. unfold average. rewrite rsum_map_plus, rsum_map_const. field.
  apply not_0_INR. destruct l; [contradiction|discriminate].
Qed.
Lemma average_ext {A} (f g : A -> R) l : (forall x, In x l -> f x = g x) -> average f l = average g l.
Proof. intros H. unfold average. f_equal. apply rsum_map_ext. auto. Qed.

Lemma unit_pairs key l v : (2 <= length (obs key v l))%nat ->
  unit_value key l v = (gsum key by_ l v ^ 2 - gsum key (fun r => by_ r * by_ r) l v) / (gsize key l v - 1).
Proof.
  intros N. unfold unit_value, average. rewrite square_sum, pairs_length. unfold gsum, gsize.
  change (rows_of key l v) with (obs key v l). apply le_INR in N. change (INR 2) with (1 + 1) in N. field. split; lra.
Qed.

Lemma unit_value_shift key c l v : (forall r, key (add_wage c r) = key r) -> (2 <= length (obs key v l))%nat ->
  unit_value key (map (add_wage c) l) v = unit_value key l v + 2 * c * gsum key by_ l v + gsize key l v * c ^ 2.
Proof.
  intros H N. rewrite !unit_pairs by (try rewrite obs_map, map_length; auto).
  unfold gsum, gsize. change (rows_of key (map (add_wage c) l) v) with (obs key v (map (add_wage c) l)).
  rewrite obs_map by auto. change (rows_of key l v) with (obs key v l). rewrite !map_map, map_length. cbn [add_wage by_].
  rewrite rsum_map_plus, rsum_map_const.
  rewrite (rsum_map_ext (fun r => (by_ r + c) * (by_ r + c)) (fun r => by_ r * by_ r + (2 * c * by_ r + c * c))) by (intros; ring).
  rewrite rsum_map_plus, rsum_map_plus, rsum_map_scal, rsum_map_const.
  apply le_INR in N. change (INR 2) with (1 + 1) in N. field. lra.
Qed.

Lemma two_units key l vs v : two_obs key l -> lists_units key vs l -> In v vs -> (2 <= length (obs key v l))%nat.
Proof. intros T [_ E] I. apply E in I. destruct I as (r & I & <-). apply T, I. Qed.

Lemma pair_variance_shift key c l vs : (forall r, key (add_wage c r) = key r) -> l <> [] -> two_obs key l -> lists_units key vs l ->
  pair_variance key vs (map (add_wage c) l) = pair_variance key vs l.
Proof.
  intros H N T L. unfold pair_variance. rewrite map_length, average_map. cbn [add_wage by_]. rewrite average_plus by auto.
  fold (unit_value key (map (add_wage c) l)). fold (unit_value key l).
  rewrite (rsum_map_ext _ (fun v => unit_value key l v + (2 * c * gsum key by_ l v + c ^ 2 * gsize key l v))).
  2:{ intros v I. change (unit_value key (map (add_wage c) l) v = unit_value key l v + (2 * c * gsum key by_ l v + c ^ 2 * gsize key l v)).
      rewrite unit_value_shift by (auto; eapply two_units; eauto). ring. }
  rewrite rsum_map_plus, rsum_map_plus, !rsum_map_scal.
  change (fun v => gsum key by_ l v) with (gsum key by_ l). change (fun v => gsize key l v) with (gsize key l).
  rewrite (group_total key by_ vs l L), (group_size_total key vs l L).
  change (fun v => unit_value key l v) with (unit_value key l).
  change (fun v : nat => INR (length (obs key v l)) * average (fun p => by_ (fst p) * by_ (snd p)) (distinct_pairs (obs key v l))) with (unit_value key l).
  unfold average. assert (INR (length l) <> 0) by (apply not_0_INR; destruct l; [contradiction|discriminate]). field. auto.
Qed.

Lemma others_map key g p l : (forall r, key (g r) = key r) -> others key p (map g l) = map g (others key p l).
Proof.
  intros H. unfold others. rewrite nth_error_map. destruct (nth_error l p); cbn; auto. rewrite H, <- obs_map by auto.
  f_equal. unfold remove_at. rewrite skipn_map, firstn_map, map_app. reflexivity.
Qed.

Lemma others_nonempty key l p : two_obs key l -> (p < length l)%nat -> others key p l <> [].
Proof.
  intros T I E. destruct (nth_error l p) as [r|] eqn:N; [|apply nth_error_None in N; lia].
  pose proof (proj2 (leave_one_out key by_ l p r N)) as L. rewrite E in L. unfold gsize in L. cbn [length INR] in L.
  pose proof (T r (nth_error_In _ _ N)) as K. unfold obs in K. apply le_INR in K. change (INR 2) with (1 + 1) in K.
  unfold rows_of in L. lra.
Qed.

(* The leave-out means of a unit average to the mean of the data. *)
Lemma others_total key l : two_obs key l ->
  rsum (map (fun p => average by_ (others key p l)) (range (length l))) = rsum (map by_ l).
Proof.
  intros T. rewrite (sum_positions _ (fun r => (gsum key by_ l (key r) - by_ r) / (gsize key l (key r) - 1))).
  2:{ intros p r N. rewrite <- (leave_out_others key l p r N). reflexivity. }
  pose proof (appearance_lists key l) as L.
  rewrite <- (group_total key _ _ l L), <- (group_total key by_ _ l L). apply rsum_map_ext. intros v I.
  unfold gsum at 1. rewrite (rsum_map_ext _ (fun r => (gsum key by_ l v + - 1 * by_ r) * / (gsize key l v - 1))).
  2:{ intros r J. apply filter_In in J. destruct J as [_ J]. apply Nat.eqb_eq in J. rewrite J. unfold Rdiv. f_equal. ring. }
  rewrite rsum_map_scal_r, rsum_map_plus, rsum_map_scal, rsum_map_const.
  fold (gsum key by_ l v). fold (gsize key l v). pose proof (two_units key l _ v T L I) as K. apply le_INR in K.
  change (INR 2) with (1 + 1) in K. unfold gsize, rows_of. unfold obs in K. field. lra.
Qed.

Lemma pair_covariance_shift c l : l <> [] -> two_obs bi l -> two_obs bj l ->
  pair_covariance (map (add_wage c) l) = pair_covariance l.
Proof.
  intros N Ti Tj. unfold pair_covariance. rewrite map_length, average_map. cbn [add_wage by_]. rewrite average_plus by auto.
  rewrite (average_ext _ (fun p => average by_ (others bi p l) * average by_ (others bj p l)
     + (c * average by_ (others bi p l) + (c * average by_ (others bj p l) + c ^ 2)))).
  2:{ intros p I. apply in_seq in I. rewrite !others_map, !average_map by auto. cbn [add_wage by_].
      rewrite !average_plus by (apply others_nonempty; auto; lia). ring. }
  assert (K : INR (length l) <> 0) by (apply not_0_INR; destruct l; [contradiction|discriminate]).
  assert (L : forall F G H : nat -> R, average (fun p => F p + (c * G p + (c * H p + c ^ 2))) (range (length l)) =
     average F (range (length l)) + (c * average G (range (length l)) + (c * average H (range (length l)) + c ^ 2))).
  { intros F G H. unfold average. rewrite !rsum_map_plus, !rsum_map_scal, rsum_map_const. unfold range. rewrite seq_length. field. auto. }
  rewrite L.
  assert (M : forall key, two_obs key l -> average (fun p => average by_ (others key p l)) (range (length l)) = average by_ l).
  { intros key T. unfold average at 1. rewrite (others_total key l T). unfold range. rewrite seq_length. reflexivity. }
  rewrite !M by auto. ring.
Qed.
