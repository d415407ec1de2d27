(* The results of the Borovickova-Shimer estimator in closed form. *)
From Coq Require Import Sorted Permutation.
From Verif Require Import Base BaseLemmas UtilModel BsModel BsSpec BsLemmas BsSumLemmas.
Local Open Scope R_scope.

Lemma map2_map {A} (f g : A -> R) l : map2 Rmult (map f l) (map g l) = map (fun x => f x * g x) l.
Proof. induction l; cbn; f_equal; auto. Qed.

Lemma obs_perm key v l l' : Permutation l l' -> Permutation (obs key v l) (obs key v l').
Proof. apply filter_perm. Qed.

Lemma average_pairs_perm {A} (f : A -> R) l l' : Permutation l l' ->
  average (fun p => f (fst p) * f (snd p)) (distinct_pairs l) = average (fun p => f (fst p) * f (snd p)) (distinct_pairs l').
Proof.
  intros P. unfold average. rewrite (pair_sum_perm f l l' P). rewrite !pairs_length, (Permutation_length P). reflexivity.
Qed.

Lemma pairs_map {A B} (g : A -> B) l : distinct_pairs (map g l) = map (fun p => (g (fst p), g (snd p))) (distinct_pairs l).
Proof.
  unfold distinct_pairs. rewrite map_length. rewrite !flat_map_concat_map, concat_map, map_map. f_equal. apply map_ext. intros i.
  rewrite nth_error_map. destruct (nth_error l i); cbn; auto. unfold remove_at.
  rewrite map_map. rewrite skipn_map, firstn_map, <- map_app, map_map. reflexivity.
Qed.

(* ---- unweighted ---- *)
Definition unit_value key l v : R :=
  INR (length (obs key v l)) * average (fun p => by_ (fst p) * by_ (snd p)) (distinct_pairs (obs key v l)).

Lemma unit_value_perm key l l' v : Permutation l l' -> unit_value key l v = unit_value key l' v.
Proof.
  intros P. unfold unit_value. rewrite (average_pairs_perm by_ _ _ (obs_perm key v l l' P)).
  rewrite (Permutation_length (obs_perm key v l l' P)). reflexivity.
Qed.

Lemma units_change key vs us l f : lists_units key vs l -> lists_units key us l -> rsum (map f vs) = rsum (map f us).
Proof. intros A B. apply rsum_f_perm. eapply lists_perm; eauto. Qed.

Lemma sigma_top key l : sorted_by key l ->
  rsum (map2 Rmult (map (gsize key l) (appearance key l)) (mean_sq key by_ None l)) = rsum (map (unit_value key l) (np_unique (map key l))).
Proof. intros So. rewrite appearance_sorted, mean_sq_none, map2_map by auto. reflexivity. Qed.

Lemma size_total key l : sorted_by key l -> rsum (map (gsize key l) (appearance key l)) = INR (length l).
Proof. intros So. rewrite appearance_sorted by auto. apply group_size_total, unique_lists. Qed.

Lemma sigma_unweighted key l l0 vs m : sorted_by key l -> Permutation l l0 -> lists_units key vs l0 ->
  sigma_sq false key l m = rsum (map (unit_value key l0) vs) / INR (length l0) - m ^ 2.
Proof.
  intros So P L. unfold sigma_sq, group_mean_sq, weights_sum. rewrite sigma_top, size_total by auto.
  rewrite (units_change key vs (np_unique (map key l)) l0 (unit_value key l0) L).
  - rewrite (rsum_map_ext (unit_value key l0) (unit_value key l)) by (intros; symmetry; apply unit_value_perm; auto).
    rewrite (Permutation_length P). reflexivity.
  - eapply lists_rows; [exact P|apply unique_lists].
Qed.

Lemma alt_sigma_unweighted key l m : sorted_by key l -> alt_sigma_sq false key l m = sigma_sq false key l m.
Proof.
  intros So. unfold alt_sigma_sq, sigma_sq, group_mean_sq, alt_weights_sq, weights_sum. do 2 f_equal.
  rewrite map2_map. apply rsum_map_ext. intros v _. field.
Qed.

Lemma appearance_all (key : brow -> nat) l : forall acc, NoDup acc ->
  let res := fold_left (fun acc r => if existsb (Nat.eqb (key r)) acc then acc else acc ++ [key r]) l acc in
  NoDup res /\ forall v, In v res <-> In v acc \/ In v (map key l).
Proof.
  induction l as [|r l IH]; intros acc A; cbn [fold_left map In].
  - split; auto. intros; tauto.
  - destruct (existsb (Nat.eqb (key r)) acc) eqn:E.
    + apply existsb_in in E. destruct (IH acc A) as [I1 I2]. split; auto. intros v. rewrite I2. split; [tauto|]. intros [|[<-|]]; auto.
    + assert (N : ~ In (key r) acc) by (intros I; apply existsb_in in I; congruence).
      destruct (IH (acc ++ [key r])) as [I1 I2].
      * eapply Permutation_NoDup; [apply Permutation_cons_append|]. constructor; auto.
      * split; auto. intros v. rewrite I2, in_app_iff. cbn [In]. tauto.
Qed.
Lemma appearance_lists key l : lists_units key (appearance key l) l.
Proof.
  unfold appearance. destruct (appearance_all key l [] (NoDup_nil _)) as [A B]. split; auto. intros v. rewrite B, in_map_iff. cbn [In].
  split; [intros [[]|(r & E & I)]; exists r; auto|intros (r & I & E); right; exists r; auto].
Qed.

Lemma y_bar_unweighted key l : y_bar false key l = average by_ l.
Proof.
  unfold y_bar, group_mean, weights_sum, average. change (fun v => gsize key l v) with (gsize key l). rewrite (group_size_total key (appearance key l) l (appearance_lists key l)).
  f_equal. rewrite <- (group_total key by_ (appearance key l) l (appearance_lists key l)). apply rsum_map_ext. intros v I.
  pose proof (group_nonempty key _ l v (appearance_lists key l) I). field. lra.
Qed.

Lemma alt_y_bar_unweighted key l : alt_y_bar false key l = average by_ l.
Proof.
  rewrite <- (y_bar_unweighted key l). unfold alt_y_bar, y_bar, alt_mean, group_mean, alt_weights, weights_sum. f_equal.
  apply rsum_map_ext. intros; ring.
Qed.

Lemma average_perm {A} (f : A -> R) l l' : Permutation l l' -> average f l = average f l'.
Proof. intros P. unfold average. rewrite (rsum_f_perm f l l' P), (Permutation_length P). reflexivity. Qed.

Lemma leave_out_others key l p r : nth_error l p = Some r -> leave_out false key l r = average by_ (others key p l).
Proof.
  intros N. unfold leave_out, average. destruct (leave_one_out key by_ l p r N) as [-> ->]. reflexivity.
Qed.

Lemma cov_unweighted sort_j l : is_sort_j sort_j ->
  rsum (map (fun r => leave_out false bi l r * leave_out false bj (sort_j l) r) (sort_j l)) / INR (length (sort_j l)) =
  average (fun p => average by_ (others bi p l) * average by_ (others bj p l)) (range (length l)).
Proof.
  intros S. destruct (S l) as [P _]. unfold average at 1. rewrite (Permutation_length P).
  rewrite (rsum_f_perm _ _ _ P).
  unfold range at 2. rewrite seq_length. f_equal. symmetry.
  apply (sum_positions (fun p => average by_ (others bi p l) * average by_ (others bj p l))). intros p r N.
  rewrite <- (leave_out_others bi l p r N), <- (leave_out_others bj l p r N). f_equal.
  unfold leave_out. rewrite (gsum_perm bj by_ _ _ (bj r) P), (gsize_perm bj _ _ (bj r) P). reflexivity.
Qed.

Lemma alt_leave_out_eq key l r : alt_leave_out key l r = leave_out false key l r.
Proof. reflexivity. Qed.

(* ---- weighted ---- *)
Lemma obs_weigh key v l : (forall r, key (weigh r) = key r) -> obs key v (map weigh l) = map weigh (obs key v l).
Proof.
  intros H. unfold obs. induction l as [|r l IH]; cbn; auto. rewrite H. destruct (key r =? v)%nat; cbn; f_equal; auto.
Qed.

Definition unit_value_w key l v : R :=
  rsum (map bw (obs key v l))
  * waverage (fun p => sqrt (bw (fst p)) * sqrt (bw (snd p))) (fun p => by_ (fst p) * by_ (snd p)) (distinct_pairs (obs key v l)).

Lemma waverage_pairs_perm {A} (w f : A -> R) l l' : Permutation l l' ->
  waverage (fun p => w (fst p) * w (snd p)) (fun p => f (fst p) * f (snd p)) (distinct_pairs l) =
  waverage (fun p => w (fst p) * w (snd p)) (fun p => f (fst p) * f (snd p)) (distinct_pairs l').
Proof.
  intros P. unfold waverage. rewrite (pair_sum_perm w l l' P). f_equal.
  transitivity (rsum (map (fun p => (w (fst p) * f (fst p)) * (w (snd p) * f (snd p))) (distinct_pairs l))).
  { apply rsum_map_ext. intros; ring. }
  rewrite (pair_sum_perm (fun x => w x * f x) l l' P). apply rsum_map_ext. intros; ring.
Qed.

Lemma sorted_key_weigh key l : (forall r, key (weigh r) = key r) -> sorted_by key l -> sorted_by key (map weigh l).
Proof.
  intros H. induction 1 as [|r l A IH F]; cbn; constructor; auto. rewrite Forall_forall in *. intros s I.
  apply in_map_iff in I. destruct I as (t & <- & I). rewrite !H. auto.
Qed.
Lemma lists_weigh key vs l : (forall r, key (weigh r) = key r) -> lists_units key vs l -> lists_units key vs (map weigh l).
Proof.
  intros H [A B]. split; auto. intros v. rewrite B. split.
  - intros (r & I & E). exists (weigh r). split; [apply in_map; auto|rewrite H; auto].
  - intros (r & I & E). apply in_map_iff in I. destruct I as (s & <- & I). exists s. rewrite H in E. auto.
Qed.

Lemma gsum_weigh key f l v : (forall r, key (weigh r) = key r) ->
  gsum key f (map weigh l) v = rsum (map (fun r => f (weigh r)) (obs key v l)).
Proof. intros H. unfold gsum. change (rows_of key (map weigh l) v) with (obs key v (map weigh l)). rewrite obs_weigh, map_map; auto. Qed.

Lemma sigma_weighted key L l vs m : (forall r, key (weigh r) = key r) -> sorted_by key L -> Permutation L (map weigh l) -> lists_units key vs l ->
  sigma_sq true key L m = rsum (map (unit_value_w key l) vs) / rsum (map bw l) - m ^ 2.
Proof.
  intros H So P Li. unfold sigma_sq, group_mean_sq, weights_sum. rewrite appearance_sorted, mean_sq_some, map2_map by auto.
  assert (Lu : lists_units key (np_unique (map key L)) (map weigh l)) by (eapply lists_rows; [exact P|apply unique_lists]).
  rewrite (units_change key vs (np_unique (map key L)) (map weigh l) (unit_value_w key l) (lists_weigh key vs l H Li) Lu).
  do 2 f_equal.
  - f_equal. apply map_ext_in. intros v _. unfold unit_value_w. rewrite (gsum_perm key bw _ _ v P), gsum_weigh by auto. f_equal.
    change (rows_of key L v) with (obs key v L).
    pose proof (obs_perm key v _ _ P) as Q. rewrite obs_weigh in Q by auto.
    rewrite (pair_sum_perm (fun r => sqrt (bw r)) _ _ Q). rewrite (pair_sum_perm (fun r => sqrt (bw r) * unweighted_y r) _ _ Q).
    rewrite pairs_map, !map_map. unfold waverage. cbn. f_equal. apply rsum_map_ext. intros; ring.
  - rewrite (rsum_map_ext (fun v => gsum key bw L v) (gsum key bw (map weigh l))) by (intros; apply gsum_perm; auto).
    rewrite (group_total key bw _ _ Lu), map_map. reflexivity.
Qed.

Lemma y_bar_weighted key l : (forall r, key (weigh r) = key r) -> positive_weights l ->
  y_bar true key (map weigh l) = waverage bw by_ l.
Proof.
  intros H W. unfold y_bar, group_mean, weights_sum, waverage. set (L := map weigh l).
  change (fun v => gsum key bw L v) with (gsum key bw L).
  rewrite (group_total key bw _ L (appearance_lists key L)).
  replace (rsum (map bw L)) with (rsum (map bw l)) by (unfold L; rewrite map_map; reflexivity). f_equal.
  transitivity (rsum (map by_ L)); [|unfold L; rewrite map_map; reflexivity].
  rewrite <- (group_total key by_ _ L (appearance_lists key L)). apply rsum_map_ext. intros v I.
  assert (0 < gsum key bw L v).
  { apply (proj2 (appearance_lists key L)) in I. destruct I as (r & I & E). unfold gsum.
    assert (J : In r (rows_of key L v)) by (apply filter_In; split; auto; apply Nat.eqb_eq; auto).
    assert (Ps : forall s, In s (rows_of key L v) -> 0 < bw s).
    { intros s K. apply filter_In in K. destruct K as [K _]. apply in_map_iff in K. destruct K as (t & <- & K). exact (W t K). }
    destruct (rows_of key L v) as [|s rest]; [contradiction|]. cbn [map rsum].
    assert (0 < bw s) by (apply Ps; left; auto).
    assert (0 <= rsum (map bw rest)).
    { apply rsum_nonneg. intros x K. apply in_map_iff in K. destruct K as (t & <- & K). apply Rlt_le, Ps. right; auto. }
    lra. }
  field. lra.
Qed.

Lemma leave_out_weighted key l p r : (forall r, key (weigh r) = key r) -> nth_error l p = Some r ->
  leave_out true key (map weigh l) (weigh r) = waverage bw by_ (others key p l).
Proof.
  intros H N. unfold leave_out, waverage. rewrite !gsum_weigh by auto. rewrite H. cbn [weigh by_ bw].
  destruct (leave_one_out key (fun r => bw r * by_ r) l p r N) as [-> _]. destruct (leave_one_out key bw l p r N) as [-> _]. reflexivity.
Qed.

Lemma cov_weighted sort_j l : is_sort_j sort_j ->
  let L := map weigh l in
  rsum (map (fun r => bw r * (leave_out true bi L r * leave_out true bj (sort_j L) r)) (sort_j L)) / rsum (map bw (sort_j L)) =
  waverage (fun p => match nth_error l p with Some r => bw r | None => 0 end)
    (fun p => waverage bw by_ (others bi p l) * waverage bw by_ (others bj p l)) (range (length l)).
Proof.
  intros S L. destruct (S L) as [P _]. unfold waverage at 1. rewrite !(rsum_f_perm _ _ _ P). 
  set (h := fun r => bw r * (leave_out true bi L r * leave_out true bj (sort_j L) r)).
  unfold L. rewrite !map_map. unfold h. f_equal; symmetry.
  - apply (sum_positions (fun p => match nth_error l p with Some r => bw r | None => 0 end * (waverage bw by_ (others bi p l) * waverage bw by_ (others bj p l)))).
    intros p r N. rewrite N. rewrite <- (leave_out_weighted bi l p r (fun _ => eq_refl) N), <- (leave_out_weighted bj l p r (fun _ => eq_refl) N).
    cbn [weigh bw]. do 2 f_equal. unfold leave_out. rewrite !(gsum_perm bj _ _ _ _ P). reflexivity.
  - apply (sum_positions (fun p => match nth_error l p with Some r => bw r | None => 0 end)).
    intros p r N. rewrite N. reflexivity.
Qed.
