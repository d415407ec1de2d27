(* The alternative estimator with unit weights, the caller's data and expectations. *)
From Coq Require Import Sorted Permutation.
From Verif Require Import Base BaseLemmas UtilModel BsModel BsSpec BsLemmas BsSumLemmas BsClosedLemmas BsPropLemmas BsProp2Lemmas.
Local Open Scope R_scope.

Lemma gsum_unit key l v : unit_weights l -> gsum key bw l v = gsize key l v.
Proof.
  intros U. unfold gsum, gsize. rewrite (rsum_map_ext bw (fun _ => 1)), rsum_map_const; [ring|].
  intros r I. apply U. apply filter_In in I. tauto.
Qed.

Lemma alt_y_bar_unit key L : unit_weights L -> alt_y_bar true key L = alt_y_bar false key L.
Proof.
  intros U. unfold alt_y_bar, weights_sum, alt_weights. f_equal.
  - apply rsum_map_ext. intros v _. rewrite gsum_unit by auto. reflexivity.
  - apply rsum_map_ext. intros v I. rewrite gsum_unit by auto.
    pose proof (group_nonempty key _ L v (appearance_lists key L) I). field. lra.
Qed.

Lemma alt_leave_unit key L r : unit_weights L -> two_obs key L -> In r L -> alt_leave_out_w true key L r = 1.
Proof.
  intros U T I. unfold alt_leave_out_w. rewrite gsum_unit by auto. rewrite (U r I). pose proof (T r I) as K. apply le_INR in K.
  change (INR 2) with (1 + 1) in K. unfold gsize. unfold obs in K. unfold rows_of. field. lra.
Qed.

Lemma alt_sigma_unit key L m : sorted_by key L -> unit_weights L -> two_obs key L ->
  alt_sigma_sq true key L m = (alt_sigma_sq false key L m + m ^ 2) / 2 - m ^ 2.
Proof.
  intros So U T. unfold alt_sigma_sq, weights_sum, alt_weights_sq.
  rewrite (map_ext (fun v => gsum key bw L v) (gsize key L)) by (intros; apply gsum_unit; auto).
  change (fun v => gsize key L v) with (gsize key L). rewrite (mean_sq_none key bw) by auto. rewrite !appearance_sorted by auto.
  rewrite map_map, !map2_map.
  rewrite (rsum_map_ext _ (fun v => gsize key L v * 2) (np_unique (map key L))).
  - rewrite (rsum_map_ext (fun v => gsize key L v * (2 * (1 / 2))) (fun v => gsize key L v * 1)) by (intros; field).
    rewrite !rsum_map_scal_r. rewrite Rmult_1_r. unfold Rdiv. rewrite Rinv_mult. ring.
  - intros v I. f_equal. rewrite (average_ext _ (fun _ => 1)).
    + assert (N := two_units key L _ v T (unique_lists key L) I). apply le_INR in N. change (INR 2) with (1 + 1) in N.
      change (rows_of key L v) with (obs key v L). unfold average. rewrite rsum_map_const, pairs_length. field. split; lra.
    + intros p J. apply in_pairs in J. destruct J as [J1 J2]. apply filter_In in J1. apply filter_In in J2.
      rewrite (U _ (proj1 J1)), (U _ (proj1 J2)). ring.
Qed.

Lemma var_y_unit L : unit_weights L -> var_y true L = var_y false L.
Proof.
  intros U. unfold var_y, weighted_var, weighted_mean. rewrite !map2_same, !map_map, !map_length.
  rewrite (rsum_map_ext bw (fun _ => 1) L U), rsum_map_const, Rmult_1_r.
  rewrite (rsum_map_ext (fun x => bw x * by_ x) by_) by (intros x I; rewrite (U x I); ring). f_equal.
  apply rsum_map_ext. intros x I. rewrite (U x I). ring.
Qed.

Lemma unit_perm L L' : Permutation L L' -> unit_weights L -> unit_weights L'.
Proof. intros P U r I. apply U. apply Permutation_sym in P. eapply Permutation_in; eauto. Qed.
Lemma two_perm key L L' : Permutation L L' -> two_obs key L -> two_obs key L'.
Proof.
  intros P T r I. rewrite <- (Permutation_length (obs_perm key (key r) _ _ P)). apply T. apply Permutation_sym in P. eapply Permutation_in; eauto.
Qed.

Lemma alternative_unit sort_j L : is_sort_j sort_j -> sorted_by bi L -> unit_weights L -> two_obs bi L -> two_obs bj L ->
  let r := fit_alternative sort_j false L in let r' := fit_alternative sort_j true L in
  r_var_y r' = r_var_y r /\ r_mean r' = r_mean r /\ r_cov r' = r_cov r /\
  r_var_lambda r' = (r_var_lambda r + average by_ L ^ 2) / 2 - average by_ L ^ 2 /\
  r_var_mu r' = (r_var_mu r + average by_ L ^ 2) / 2 - average by_ L ^ 2.
Proof.
  intros S So U Ti Tj. destruct (S L) as [P Sj]. unfold fit_alternative. cbn [r_var_y r_mean r_var_lambda r_var_mu r_cov].
  assert (U' := unit_perm _ _ (Permutation_sym P) U). assert (Tj' := two_perm bj _ _ (Permutation_sym P) Tj).
  rewrite !alt_y_bar_unit, !alt_y_bar_unweighted by auto. rewrite (average_perm by_ _ _ P). rewrite !alt_sigma_unit by auto.
  split; [apply var_y_unit; auto|]. split; [reflexivity|]. split; [|split; reflexivity].
  f_equal. rewrite (rsum_map_ext (fun r => bw r * (alt_leave_out_w true bi L r * alt_leave_out_w true bj (sort_j L) r)) (fun _ => 1)).
  - rewrite rsum_map_const, Rmult_1_r. f_equal. apply rsum_map_ext. intros r I. rewrite (U' r I). ring.
  - intros r I. rewrite (U' r I), !alt_leave_unit; auto; [ring|]. eapply Permutation_in; eauto.
Qed.

Lemma weigh_unit l : unit_weights l -> unit_weights (map weigh l).
Proof. intros U r I. apply in_map_iff in I. destruct I as (s & <- & I). cbn. auto. Qed.
Lemma two_weigh key l : (forall r, key (weigh r) = key r) -> two_obs key l -> two_obs key (map weigh l).
Proof.
  intros H T r I. apply in_map_iff in I. destruct I as (s & <- & I). rewrite obs_map by auto. rewrite map_length, H. auto.
Qed.

Lemma average_weigh l : unit_weights l -> average by_ (map weigh l) = average by_ l.
Proof. intros U. rewrite average_map. apply average_ext. intros x I. cbn. rewrite (U x I). ring. Qed.

Lemma pair_variance_weigh key vs l : (forall r, key (weigh r) = key r) -> unit_weights l ->
  pair_variance key vs (map weigh l) = pair_variance key vs l.
Proof.
  intros H U. unfold pair_variance. rewrite average_weigh, map_length by auto. do 2 f_equal. apply rsum_map_ext. intros v _.
  rewrite obs_map, map_length, pairs_map, average_map by auto. f_equal. apply average_ext. intros p I. cbn.
  apply in_pairs in I. destruct I as [I J]. apply in_obs in I. apply in_obs in J. rewrite (U _ I), (U _ J). ring.
Qed.
Lemma pair_covariance_weigh l : unit_weights l -> pair_covariance (map weigh l) = pair_covariance l.
Proof.
  intros U. unfold pair_covariance. rewrite average_weigh, map_length by auto. f_equal. apply average_ext. intros p _.
  rewrite !others_map, !average_map by auto.
  f_equal; apply average_ext; intros x I; cbn; apply in_others in I; rewrite (U _ I); ring.
Qed.

Lemma c74_alternative sort_j sort_rows has_w l r after r' after' :
  is_sort_j sort_j -> sorted_by bi l -> unit_weights l -> two_obs bi l -> two_obs bj l ->
  fit sort_j sort_rows true has_w true false l = Ok (r, after) ->
  fit sort_j sort_rows true true true true l = Ok (r', after') ->
  r_var_y r' = r_var_y r /\ r_mean r' = r_mean r /\ r_cov r' = r_cov r /\
  r_var_lambda r' = (r_var_lambda r + r_mean r ^ 2) / 2 - r_mean r ^ 2 /\
  r_var_mu r' = (r_var_mu r + r_mean r ^ 2) / 2 - r_mean r ^ 2.
Proof.
  intros S So U Ti Tj E E'. unfold fit in E, E'. cbn [andb] in E, E'. injection E as <- _. injection E' as <- _.
  pose proof (appearance_lists bi l) as Lw. pose proof (appearance_lists bj l) as Lf.
  pose proof (sorted_key_weigh bi l (fun _ => eq_refl) So) as So'.
  destruct (fit_closed sort_j l _ _ true S So Lw Lf) as (A & B & C & D & F & _).
  destruct (fit_closed sort_j (map weigh l) _ _ true S So' (lists_weigh bi _ l (fun _ => eq_refl) Lw) (lists_weigh bj _ l (fun _ => eq_refl) Lf))
    as (A' & B' & C' & D' & F' & _).
  cbv beta iota in A, B, C, D, F, A', B', C', D', F'.
  destruct (alternative_unit sort_j (map weigh l) S So' (weigh_unit l U) (two_weigh bi l (fun _ => eq_refl) Ti) (two_weigh bj l (fun _ => eq_refl) Tj))
    as (V1 & V2 & V3 & V4 & V5).
  rewrite V1, V2, V3, V4, V5. rewrite A, B, C, D, F, A', B', C', D', F'. rewrite !average_weigh, !pair_variance_weigh, pair_covariance_weigh by auto.
  split; [|repeat split; auto]. rewrite average_map. apply average_ext. intros x I. cbn [weigh by_]. rewrite (U x I). f_equal. ring.
Qed.

Lemma c74_alternative_less sort_j sort_rows has_w l r after r' after' :
  is_sort_j sort_j -> sorted_by bi l -> unit_weights l -> two_obs bi l -> two_obs bj l ->
  fit sort_j sort_rows true has_w true false l = Ok (r, after) ->
  fit sort_j sort_rows true true true true l = Ok (r', after') ->
  r_var_y r' = r_var_y r /\ r_mean r' = r_mean r /\ r_cov r' = r_cov r /\
  r_var_lambda r' = (r_var_lambda r + r_mean r ^ 2) / 2 - r_mean r ^ 2 /\
  r_var_mu r' = (r_var_mu r + r_mean r ^ 2) / 2 - r_mean r ^ 2 /\
  (0 < r_var_lambda r -> r_var_lambda r' < r_var_lambda r).
Proof.
  intros S So U Ti Tj E E'. destruct (c74_alternative sort_j sort_rows has_w l r after r' after' S So U Ti Tj E E') as (A & B & C & D & F).
  repeat (split; [assumption|]). intros P. rewrite D. pose proof (pow2_ge_0 (r_mean r)). lra.
Qed.

(* ---- C75 ---- *)
Lemma restore_weigh r : bu r = None -> restore (weigh r) = r.
Proof. destruct r. cbn. intros ->. reflexivity. Qed.

Lemma sorted_unique l l' : Permutation l' l -> StronglySorted before l -> StronglySorted (fun r s => ~ before s r) l' -> l' = l.
Proof.
  intros P A. revert l' P. induction A as [|r l A IH F]; intros l' P B.
  - apply Permutation_sym, Permutation_nil in P. auto.
  - destruct B as [|s l' B G]; [apply Permutation_nil in P; discriminate|].
    rewrite Forall_forall in F, G.
    assert (s = r).
    { assert (I : In s (r :: l)) by (eapply Permutation_in; [exact P|left; auto]). destruct I as [|I]; auto.
      assert (J : In r (s :: l')) by (apply Permutation_sym in P; eapply Permutation_in; [exact P|left; auto]). destruct J as [|J]; auto.
      exfalso. apply (G r J). apply F; auto. }
    subst s. f_equal. apply IH; auto. apply Permutation_cons_inv in P. auto.
Qed.

Lemma c75_unchanged sort_j sort_rows has_w alt weighted l r after :
  is_sort_j sort_j -> is_sort_rows sort_rows -> StronglySorted before l -> (forall x, In x l -> bu x = None) ->
  fit sort_j sort_rows true has_w alt weighted l = Ok (r, after) -> after = l.
Proof.
  intros S R So N E. unfold fit in E. injection E as _ <-.
  destruct (weighted && has_w)%bool.
  - destruct (S (map weigh l)) as [P _]. destruct (R (map restore (sort_j (map weigh l)))) as [Q T].
    apply sorted_unique; auto. eapply Permutation_trans; [exact Q|]. eapply Permutation_trans; [apply Permutation_map; exact P|].
    rewrite map_map. rewrite (map_ext_in _ (fun x => x)) by (intros x I; apply restore_weigh; auto). rewrite map_id. auto.
  - destruct (S l) as [P _]. destruct (R (sort_j l)) as [Q T]. apply sorted_unique; auto. eapply Permutation_trans; eauto.
Qed.

(* ---- C76 ---- *)
Lemma fst_enum {A} (k : list A) : map fst (enumerate k) = range (length k).
Proof. unfold enumerate, range. generalize 0%nat. induction k as [|x k IH]; intros s; cbn; f_equal; auto. Qed.

Section Noise.
Variables (Om : list outcome) (m : nat -> R) (l : list brow).
Hypothesis space : is_space Om.
Hypothesis mean : forall p, (p < length l)%nat -> expect Om (fun y => y p) = m p.
Hypothesis uncor : forall p q, (p < length l)%nat -> (q < length l)%nat -> p <> q -> expect Om (fun y => y p * y q) = m p * m q.

Lemma rsum_swap {A B} (f : A -> B -> R) la lb :
  rsum (map (fun a => rsum (map (f a) lb)) la) = rsum (map (fun b => rsum (map (fun a => f a b) la)) lb).
Proof.
  induction la as [|a la IH]; cbn [map rsum].
  - symmetry. apply rsum_zero. auto.
  - rewrite IH. rewrite <- rsum_map_plus. apply rsum_map_ext. auto.
Qed.

Lemma expect_sum {A} (f : A -> (nat -> R) -> R) L :
  expect Om (fun y => rsum (map (fun x => f x y) L)) = rsum (map (fun x => expect Om (f x)) L).
Proof.
  unfold expect. rewrite <- (rsum_swap (fun o x => prob o * f x (wage_of o)) Om L). apply rsum_map_ext. intros o _. rewrite rsum_map_scal. reflexivity.
Qed.
Lemma expect_scal c f : expect Om (fun y => f y * c) = expect Om f * c.
Proof. unfold expect. rewrite (rsum_map_ext _ (fun o => prob o * f (wage_of o) * c)) by (intros; ring). apply rsum_map_scal_r. Qed.
Lemma expect_minus f g : expect Om (fun y => f y - g y) = expect Om f - expect Om g.
Proof. unfold expect. rewrite (rsum_map_ext _ (fun o => prob o * f (wage_of o) - prob o * g (wage_of o))) by (intros; ring). apply rsum_map_minus. Qed.
Lemma expect_const c : expect Om (fun _ => c) = c.
Proof. unfold expect. rewrite rsum_map_scal_r. destruct space as [_ ->]. ring. Qed.
Lemma expect_ext f g : (forall y, f y = g y) -> expect Om f = expect Om g.
Proof. intros H. unfold expect. apply rsum_map_ext. intros o _. rewrite H. reflexivity. Qed.

Lemma expect_average {A} (f : A -> (nat -> R) -> R) L :
  expect Om (fun y => average (fun x => f x y) L) = average (fun x => expect Om (f x)) L.
Proof. unfold average, Rdiv. rewrite expect_scal, expect_sum. reflexivity. Qed.

(* positions of the rows of a unit *)
Definition G y (pr : nat * brow) : brow := let r := snd pr in mkbrow (bi r) (bj r) (bt r) (y (fst pr)) (bw r) (bu r).
Definition same_key (key : brow -> nat) := forall y pr, key (G y pr) = key (snd pr).
Definition pos (key : brow -> nat) v : list nat := map fst (filter (fun pr => (key (snd pr) =? v)%nat) (enumerate l)).

Lemma enumerate_nth p r : In (p, r) (enumerate l) -> nth_error l p = Some r.
Proof.
  intros I. apply In_nth_error in I. destruct I as [n I]. rewrite nth_error_enumerate in I. destruct (nth_error l n) eqn:E; [|discriminate].
  cbn in I. injection I as <- <-. auto.
Qed.
Lemma fst_enumerate : map fst (enumerate l) = range (length l).
Proof. apply fst_enum. Qed.

Lemma obs_with key v y : same_key key -> obs key v (with_wages l y) = map (G y) (filter (fun pr => (key (snd pr) =? v)%nat) (enumerate l)).
Proof.
  intros H. change (with_wages l y) with (map (G y) (enumerate l)). unfold obs.
  induction (enumerate l) as [|a k IH]; cbn [map filter]; auto.
  rewrite H. destruct (key (snd a) =? v)%nat; cbn [map]; f_equal; auto.
Qed.

Lemma unit_with key v y : same_key key -> unit_value key (with_wages l y) v = INR (length (pos key v)) * average (fun p => y (fst p) * y (snd p)) (distinct_pairs (pos key v)).
Proof.
  intros H. unfold unit_value. rewrite obs_with by auto. unfold pos. rewrite !map_length, !pairs_map, !average_map. reflexivity.
Qed.

Lemma pos_nodup key v : NoDup (pos key v).
Proof.
  unfold pos. assert (N : NoDup (map fst (enumerate l))) by (rewrite fst_enumerate; apply seq_NoDup).
  induction (enumerate l) as [|a k IH]; cbn; [constructor|]. cbn in N. inversion N as [|? ? N1 N2]; subst.
  destruct (key (snd a) =? v)%nat; cbn; auto. constructor; auto. intros I. apply N1. apply in_map_iff in I. destruct I as (b & <- & I).
  apply filter_In in I. apply in_map. tauto.
Qed.
Lemma pos_lt key v p : In p (pos key v) -> (p < length l)%nat.
Proof.
  unfold pos. rewrite in_map_iff. intros ([q r] & <- & I). apply filter_In in I. destruct I as [I _]. apply enumerate_nth in I.
  cbn. apply nth_error_Some. congruence.
Qed.

Lemma pairs_distinct {A} (k : list A) p : NoDup k -> In p (distinct_pairs k) -> fst p <> snd p.
Proof.
  intros N I. unfold distinct_pairs in I. rewrite in_flat_map in I. destruct I as (i & _ & I). destruct (nth_error k i) eqn:E; [|contradiction].
  apply in_map_iff in I. destruct I as (b & <- & I). cbn. intros <-. apply nth_error_split in E. destruct E as (l1 & l2 & -> & <-).
  rewrite remove_at_split in I. apply NoDup_remove_2 in N. auto.
Qed.

Lemma expect_unit key v : same_key key -> expect Om (fun y => unit_value key (with_wages l y) v) = unit_value key (with_wages l m) v.
Proof.
  intros H. rewrite (unit_with key v m H). rewrite (expect_ext _ (fun y => average (fun p => y (fst p) * y (snd p)) (distinct_pairs (pos key v)) * INR (length (pos key v)))).
  - rewrite expect_scal, (expect_average (fun p y => y (fst p) * y (snd p))). rewrite Rmult_comm. f_equal. apply average_ext. intros p I.
    apply uncor; try (apply (pos_lt key v); apply in_pairs in I; tauto). eapply pairs_distinct; eauto. apply pos_nodup.
  - intros y. rewrite unit_with by auto. ring.
Qed.

Lemma average_with y : average by_ (with_wages l y) = average y (range (length l)).
Proof.
  unfold with_wages. rewrite average_map. cbn. rewrite <- fst_enumerate, average_map. reflexivity.
Qed.
Lemma length_with y : length (with_wages l y) = length l.
Proof. unfold with_wages. rewrite map_length. apply length_enumerate. Qed.

Lemma expect_mean_sq : expect Om (fun y => average y (range (length l)) ^ 2) = average m (range (length l)) ^ 2 + mean_variance Om m (length l).
Proof.
  unfold mean_variance. set (n := length l). set (mb := average m (range n)).
  assert (E : expect Om (fun y => average y (range n)) = mb).
  { rewrite (expect_average (fun p y => y p)). apply average_ext. intros p I. apply in_seq in I. apply mean. unfold n in I. lia. }
  rewrite (expect_ext (fun y => (average y (range n) - mb) ^ 2) (fun y => average y (range n) ^ 2 - (average y (range n) * (2 * mb) - mb ^ 2))) by (intros; ring).
  rewrite !expect_minus, expect_scal, expect_const, E. ring.
Qed.

Lemma expect_variance key vs : same_key key ->
  expect Om (fun y => pair_variance key vs (with_wages l y)) = pair_variance key vs (with_wages l m) - mean_variance Om m (length l).
Proof.
  intros H. unfold pair_variance. rewrite expect_minus.
  rewrite (expect_ext (fun y => average by_ (with_wages l y) ^ 2) (fun y => average y (range (length l)) ^ 2)) by (intros; rewrite average_with; reflexivity).
  rewrite expect_mean_sq, average_with, length_with.
  rewrite (expect_ext _ (fun y => rsum (map (fun v => unit_value key (with_wages l y) v) vs) * / INR (length l))).
  2:{ intros y. rewrite length_with. reflexivity. }
  rewrite expect_scal, (expect_sum (fun v y => unit_value key (with_wages l y) v)).
  rewrite (rsum_map_ext _ (fun v => unit_value key (with_wages l m) v)) by (intros; apply expect_unit; auto).
  unfold unit_value, Rdiv. ring.
Qed.

(* covariance *)
Definition opos (key : brow -> nat) (p : nat) : list nat :=
  match nth_error l p with
  | Some r => map fst (filter (fun pr => (key (snd pr) =? key r)%nat) (remove_at p (enumerate l)))
  | None => [] end.

Lemma others_with key p y : same_key key -> average by_ (others key p (with_wages l y)) = average y (opos key p).
Proof.
  intros H. change (with_wages l y) with (map (G y) (enumerate l)). unfold others, opos.
  rewrite nth_error_map, nth_error_enumerate. destruct (nth_error l p) as [r|]; cbn [option_map]; [|reflexivity].
  rewrite H. cbn [snd]. rewrite average_map. transitivity (average by_ (map (G y) (filter (fun pr => (key (snd pr) =? key r)%nat) (remove_at p (enumerate l))))).
  - f_equal. unfold remove_at. rewrite skipn_map, firstn_map, <- map_app. unfold obs.
    induction (firstn p (enumerate l) ++ skipn (S p) (enumerate l)) as [|a k IH]; cbn [map filter]; auto.
    rewrite H. destruct (key (snd a) =? key r)%nat; cbn [map]; f_equal; auto.
  - rewrite average_map. reflexivity.
Qed.

Lemma opos_in key p q : In q (opos key p) -> q <> p /\ (q < length l)%nat /\ exists r s, nth_error l p = Some r /\ nth_error l q = Some s /\ key s = key r.
Proof.
  unfold opos. destruct (nth_error l p) as [r|] eqn:E; [|intros []]. rewrite in_map_iff. intros ([q' s] & Q & I). cbn in Q. subst q'.
  apply filter_In in I. destruct I as [I K]. cbn in K. apply Nat.eqb_eq in K.
  assert (I0 := in_remove _ _ _ I). apply enumerate_nth in I0. split; [|split; [apply nth_error_Some; congruence|exists r, s; auto]].
  intros ->. assert (N : nth_error (enumerate l) p = Some (p, r)) by (rewrite nth_error_enumerate, E; reflexivity).
  assert (D : NoDup (map fst (enumerate l))) by (rewrite fst_enumerate; apply seq_NoDup).
  apply nth_error_split in N. destruct N as (l1 & l2 & N & L). rewrite N in D, I. 
  assert (R1 : remove_at p (l1 ++ (p, r) :: l2) = l1 ++ l2) by (rewrite <- L at 1; apply remove_at_split). rewrite R1 in I.
  rewrite map_app in D. cbn in D. apply NoDup_remove_2 in D. apply D. rewrite <- map_app. apply in_map_iff. exists (p, s). auto.
Qed.

Lemma expect_product A B : (forall a b, In a A -> In b B -> (a < length l)%nat /\ (b < length l)%nat /\ a <> b) ->
  expect Om (fun y => average y A * average y B) = average m A * average m B.
Proof.
  intros H. rewrite (expect_ext _ (fun y => average (fun a => average (fun b => y a * y b) B) A)).
  - rewrite (expect_average (fun a y => average (fun b => y a * y b) B)).
    rewrite (average_ext _ (fun a => m a * average m B)).
    + unfold average, Rdiv. rewrite rsum_map_scal_r. ring.
    + intros a I. rewrite (expect_average (fun b y => y a * y b)).
      rewrite (average_ext _ (fun b => m a * m b)) by (intros b J; destruct (H a b I J) as (P & Q & N); apply uncor; auto).
      unfold average, Rdiv. rewrite rsum_map_scal. ring.
  - intros y. rewrite (average_ext (fun a => average (fun b => y a * y b) B) (fun a => y a * average y B)).
    + unfold average, Rdiv. rewrite rsum_map_scal_r. ring.
    + intros a _. unfold average, Rdiv. rewrite rsum_map_scal. ring.
Qed.

Lemma expect_covariance : single_spells l ->
  expect Om (fun y => pair_covariance (with_wages l y)) = pair_covariance (with_wages l m) - mean_variance Om m (length l).
Proof.
  intros H. unfold pair_covariance. rewrite expect_minus.
  rewrite (expect_ext (fun y => average by_ (with_wages l y) ^ 2) (fun y => average y (range (length l)) ^ 2)) by (intros; rewrite average_with; reflexivity).
  rewrite expect_mean_sq, average_with, length_with.
  rewrite (expect_ext _ (fun y => average (fun p => average y (opos bi p) * average y (opos bj p)) (range (length l)))).
  2:{ intros y. rewrite length_with. apply average_ext. intros p _. rewrite !others_with by (intros ? ?; reflexivity). reflexivity. }
  rewrite (expect_average (fun p y => average y (opos bi p) * average y (opos bj p))).
  rewrite (average_ext _ (fun p => average by_ (others bi p (with_wages l m)) * average by_ (others bj p (with_wages l m)))); [ring|].
  intros p _. rewrite !others_with by (intros ? ?; reflexivity). apply expect_product. intros a b I J.
  apply opos_in in I. apply opos_in in J. destruct I as (N1 & L1 & r & s & E1 & E2 & E3). destruct J as (N2 & L2 & r' & s' & F1 & F2 & F3).
  split; auto. split; auto. intros <-. assert (r' = r) by congruence. assert (s' = s) by congruence. subst r' s'. apply N1. eapply H; eauto.
Qed.
End Noise.
