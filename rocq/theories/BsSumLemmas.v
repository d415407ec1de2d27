(* Closed forms of the parts of the Borovickova-Shimer estimator. *)
From Coq Require Import Sorted Permutation.
From Verif Require Import Base BaseLemmas UtilModel BsModel BsSpec BsLemmas.
Local Open Scope R_scope.

(* ---- order of appearance in a sorted frame ---- *)
Lemma sorted_same l m : StronglySorted lt l -> StronglySorted lt m -> (forall x, In x l <-> In x m) -> l = m.
Proof.
  intros H. revert m. induction H as [|x l H IH F]; intros m M E.
  - destruct m as [|y m]; auto. exfalso. apply (E y). left; auto.
  - destruct M as [|y m M G]; [exfalso; apply (E x); left; auto|].
    rewrite Forall_forall in F, G.
    assert (x = y).
    { assert (I : In x (y :: m)) by (apply E; left; auto). assert (J : In y (x :: l)) by (apply E; left; auto).
      destruct I as [|I]; auto. destruct J as [|J]; auto. specialize (F y J). specialize (G x I). lia. }
    subst y. f_equal. apply IH; auto. intros z. split; intros I.
    + assert (K : In z (x :: m)) by (apply E; right; auto). destruct K as [->|]; auto. specialize (F z I). lia.
    + assert (K : In z (x :: l)) by (apply E; right; auto). destruct K as [->|]; auto. specialize (G z I). lia.
Qed.

Lemma existsb_in v l : existsb (Nat.eqb v) l = true <-> In v l.
Proof.
  rewrite existsb_exists. split; [intros (x & I & E); apply Nat.eqb_eq in E; subst; auto|].
  intros I. exists v. split; auto. apply Nat.eqb_refl.
Qed.

Lemma lt_app_one l x : StronglySorted lt l -> (forall y, In y l -> (y < x)%nat) -> StronglySorted lt (l ++ [x]).
Proof.
  induction 1 as [|a l H IH F]; intros G; cbn.
  - constructor; constructor.
  - constructor; [apply IH; intros; apply G; right; auto|]. apply Forall_forall. intros y I. apply in_app_or in I.
    destruct I as [I|[<-|[]]]; [rewrite Forall_forall in F; auto|apply G; left; auto].
Qed.

Lemma appearance_gen key l : sorted_by key l -> forall acc, StronglySorted lt acc ->
  (forall x r, In x acc -> In r l -> (x <= key r)%nat) ->
  let res := fold_left (fun acc r => if existsb (Nat.eqb (key r)) acc then acc else acc ++ [key r]) l acc in
  StronglySorted lt res /\ forall v, In v res <-> In v acc \/ In v (map key l).
Proof.
  induction 1 as [|r l H IH F]; intros acc A B; cbn [fold_left map In].
  - split; auto. intros; tauto.
  - rewrite Forall_forall in F. destruct (existsb (Nat.eqb (key r)) acc) eqn:E.
    + apply existsb_in in E. destruct (IH acc A) as [I1 I2]; [intros; apply B; auto; right; auto|].
      split; auto. intros v. rewrite I2. split; [tauto|]. intros [|[<-|]]; auto.
    + assert (N : ~ In (key r) acc) by (intros I; apply existsb_in in I; congruence).
      destruct (IH (acc ++ [key r])) as [I1 I2].
      * apply lt_app_one; auto. intros y I. pose proof (B y r I (or_introl eq_refl)).
        assert (y <> key r) by (intros ->; auto). lia.
      * intros x s I J. apply in_app_or in I. destruct I as [I|[<-|[]]]; [apply B; auto; right; auto|apply F; auto].
      * split; auto. intros v. rewrite I2, in_app_iff. cbn [In]. tauto.
Qed.

Lemma appearance_sorted key l : sorted_by key l -> appearance key l = np_unique (map key l).
Proof.
  intros H. unfold appearance. destruct (appearance_gen key l H [] (SSorted_nil _)) as [A B]; [intros x r []|].
  apply sorted_same; auto; [apply unique_sorted|]. intros v. rewrite B, in_unique. cbn [In]. tauto.
Qed.

Lemma unique_lists key l : lists_units key (np_unique (map key l)) l.
Proof.
  split; [apply lt_sorted_nodup, unique_sorted|]. intros v. rewrite in_unique, in_map_iff. split; intros (r & A & B); exists r; auto.
Qed.

Lemma lists_perm key vs us l : lists_units key vs l -> lists_units key us l -> Permutation vs us.
Proof.
  intros [A B] [C D]. apply NoDup_Permutation; auto. intros x. rewrite B, D. tauto.
Qed.

Lemma lists_rows key vs l l' : Permutation l l' -> lists_units key vs l -> lists_units key vs l'.
Proof.
  intros P [A B]. split; auto. intros v. rewrite B. split; intros (r & I & E); exists r; split; auto.
  - eapply Permutation_in; eauto.
  - apply Permutation_sym in P. eapply Permutation_in; eauto.
Qed.

(* ---- sums over groups ---- *)
Lemma pick_one vs k c : NoDup vs -> In k vs -> rsum (map (fun v => if (k =? v)%nat then c else 0) vs) = c.
Proof.
  induction 1 as [|x vs N D IH]; intros I; [contradiction|]. cbn [map rsum].
  destruct I as [->|I].
  - rewrite Nat.eqb_refl. rewrite rsum_zero; [ring|]. intros y J. destruct (Nat.eqb_spec k y); [subst; contradiction|auto].
  - destruct (Nat.eqb_spec k x); [subst; contradiction|]. rewrite IH by auto. ring.
Qed.

Lemma group_total key f vs l : lists_units key vs l -> rsum (map (gsum key f l) vs) = rsum (map f l).
Proof.
  intros [D E]. assert (K : forall m, (forall r, In r m -> In (key r) vs) -> rsum (map (gsum key f m) vs) = rsum (map f m)).
  { induction m as [|r m IH]; intros G.
    - cbn. apply rsum_zero. auto.
    - cbn [map rsum]. rewrite <- IH by (intros; apply G; right; auto).
      rewrite <- (pick_one vs (key r) (f r) D (G r (or_introl eq_refl))) at 1.
      rewrite <- rsum_map_plus. apply rsum_map_ext. intros v _. unfold gsum, rows_of. cbn [filter].
      destruct (key r =? v)%nat; cbn; ring. }
  apply K. intros r I. apply E. exists r. auto.
Qed.

Lemma group_size_total key vs l : lists_units key vs l -> rsum (map (gsize key l) vs) = INR (length l).
Proof.
  intros L. rewrite <- (Rmult_1_r (INR (length l))), <- rsum_map_const, <- (group_total key (fun _ => 1) vs l L).
  apply rsum_map_ext. intros v _. unfold gsize, gsum. rewrite rsum_map_const. ring.
Qed.

Lemma filter_perm {A} (p : A -> bool) l l' : Permutation l l' -> Permutation (filter p l) (filter p l').
Proof.
  induction 1; cbn; auto.
  - destruct (p x); auto.
  - destruct (p x), (p y); auto. apply perm_swap.
  - eapply Permutation_trans; eauto.
Qed.
Lemma gsum_perm key f l l' v : Permutation l l' -> gsum key f l v = gsum key f l' v.
Proof. intros P. unfold gsum. apply rsum_perm, Permutation_map. apply filter_perm. exact P. Qed.
Lemma gsize_perm key l l' v : Permutation l l' -> gsize key l v = gsize key l' v.
Proof. intros P. unfold gsize. f_equal. apply Permutation_length. apply filter_perm. exact P. Qed.
Lemma rsum_f_perm {A} (f : A -> R) l l' : Permutation l l' -> rsum (map f l) = rsum (map f l').
Proof. intros P. apply rsum_perm, Permutation_map, P. Qed.

Lemma group_nonempty key vs l v : lists_units key vs l -> In v vs -> 0 < gsize key l v.
Proof.
  intros [_ E] I. apply E in I. destruct I as (r & I & K). unfold gsize. apply lt_0_INR.
  assert (J : In r (rows_of key l v)) by (apply filter_In; split; auto; apply Nat.eqb_eq; auto).
  destruct (rows_of key l v); [contradiction|cbn; lia].
Qed.

(* ---- pairs of a group ---- *)
Lemma mean_sq_none key f l : sorted_by key l ->
  mean_sq key f None l =
  map (fun v => average (fun p => f (fst p) * f (snd p)) (distinct_pairs (rows_of key l v))) (np_unique (map key l)).
Proof.
  intros So. unfold mean_sq. rewrite split_pieces by auto. rewrite map_map. apply map_ext. intros v.
  rewrite half_products. unfold average. rewrite pairs_length.
  set (n := INR (length (rows_of key l v))). set (s := rsum _). unfold Rdiv. rewrite Rinv_mult, Rinv_inv.
  generalize (/ (n * (n - 1))). intros k. field.
Qed.
Lemma mean_sq_some key f w l : sorted_by key l ->
  mean_sq key f (Some w) l =
  map (fun v => rsum (map (fun p => f (fst p) * f (snd p)) (distinct_pairs (rows_of key l v)))
              / rsum (map (fun p => w (fst p) * w (snd p)) (distinct_pairs (rows_of key l v)))) (np_unique (map key l)).
Proof.
  intros So. unfold mean_sq. rewrite split_pieces by auto. rewrite map_map. apply map_ext. intros v.
  rewrite !half_products. unfold Rdiv. rewrite Rinv_mult, Rinv_inv.
  set (a := rsum _). set (b := / rsum _). field.
Qed.

Lemma pair_sum_perm {A} (f : A -> R) l l' : Permutation l l' ->
  rsum (map (fun p => f (fst p) * f (snd p)) (distinct_pairs l)) = rsum (map (fun p => f (fst p) * f (snd p)) (distinct_pairs l')).
Proof. intros P. rewrite !square_sum. rewrite (rsum_f_perm f l l' P), (rsum_f_perm (fun x => f x * f x) l l' P). reflexivity. Qed.

(* ---- leave-out means ---- *)
Lemma leave_one_out key f l p r : nth_error l p = Some r ->
  rsum (map f (others key p l)) = gsum key f l (key r) - f r /\ INR (length (others key p l)) = gsize key l (key r) - 1.
Proof.
  intros N. unfold others. rewrite N. apply nth_error_split in N. destruct N as (l1 & l2 & -> & <-).
  rewrite remove_at_split. unfold gsum, gsize, rows_of, obs. rewrite !filter_app. cbn [filter]. rewrite Nat.eqb_refl.
  rewrite !map_app, !rsum_app, !app_length. cbn [map rsum length]. rewrite !plus_INR, S_INR. split; ring.
Qed.

Lemma positions {A} (l : list A) : map (nth_error l) (range (length l)) = map Some l.
Proof.
  unfold range. induction l as [|x l IH]; [reflexivity|]. cbn [length seq map nth_error]. f_equal.
  rewrite <- seq_shift, map_map. exact IH.
Qed.

Lemma sum_positions {A} (G : nat -> R) (g : A -> R) (l : list A) :
  (forall p r, nth_error l p = Some r -> G p = g r) -> rsum (map G (range (length l))) = rsum (map g l).
Proof.
  intros H. transitivity (rsum (map (fun o => match o with Some r => g r | None => 0 end) (map (nth_error l) (range (length l))))).
  - rewrite map_map. apply rsum_map_ext. intros p I. apply in_seq in I. destruct (nth_error l p) eqn:E; [apply H; auto|].
    apply nth_error_None in E. lia.
  - rewrite positions, map_map. reflexivity.
Qed.
