(* Proofs about the weighted statistics. *)
From Verif Require Import Base BaseLemmas UtilModel UtilSpec.
From Coq Require Import Permutation.
Local Open Scope R_scope.

Lemma positive_nth w i : positive w -> (i < length w)%nat -> 0 < nth i w 0.
Proof. intros H Hi. apply H. now apply nth_In. Qed.

Lemma rsum_positive w : w <> [] -> positive w -> 0 < rsum w.
Proof. intros. now apply rsum_pos. Qed.

Lemma len_nonnil {A} (l : list A) : l <> [] -> (0 < length l)%nat.
Proof. destruct l; simpl; [congruence|lia]. Qed.

Lemma nonnil_len {A B} (l : list A) (m : list B) :
  length l = length m -> l <> [] -> m <> [].
Proof. destruct l, m; simpl; congruence. Qed.

Lemma INR_len_pos {A} (l : list A) : l <> [] -> 0 < INR (length l).
Proof. intros H. apply lt_0_INR. now apply len_nonnil. Qed.

(* ---- mean ---- *)
Lemma mean_bounds v w lo hi :
  v <> [] -> length w = length v -> positive w ->
  (forall x, In x v -> lo <= x <= hi) ->
  lo <= weighted_mean v (WVec w) <= hi.
Proof.
  intros Hv Hl Hw Hb. unfold weighted_mean.
  assert (Hwn : w <> []) by (apply (nonnil_len v); auto).
  assert (Hp := rsum_positive w Hwn Hw).
  rewrite rsum_map2_nth by exact Hl.
  assert (E1 : rsum w * lo <= sumn (length w) (fun i => nth i w 0 * nth i v 0)).
  { rewrite (rsum_nth w), <- sumn_scal_r. apply sumn_le. intros i Hi.
    apply Rmult_le_compat_l.
    - apply Rlt_le, positive_nth; assumption.
    - apply Hb, nth_In. lia. }
  assert (E2 : sumn (length w) (fun i => nth i w 0 * nth i v 0) <= rsum w * hi).
  { rewrite (rsum_nth w), <- sumn_scal_r. apply sumn_le. intros i Hi.
    apply Rmult_le_compat_l.
    - apply Rlt_le, positive_nth; assumption.
    - apply Hb, nth_In. lia. }
  split.
  - apply Rmult_le_reg_l with (rsum w); [exact Hp|]. field_simplify; lra.
  - apply Rmult_le_reg_l with (rsum w); [exact Hp|]. field_simplify; lra.
Qed.

Lemma mean_scalar_bounds v c lo hi :
  v <> [] -> (forall x, In x v -> lo <= x <= hi) ->
  lo <= weighted_mean v (WScalar c) <= hi.
Proof.
  intros Hv Hb. unfold weighted_mean.
  assert (Hp := INR_len_pos v Hv).
  assert (E1 : INR (length v) * lo <= rsum v).
  { rewrite (rsum_nth v), <- sumn_const. apply sumn_le. intros i Hi. apply Hb, nth_In; lia. }
  assert (E2 : rsum v <= INR (length v) * hi).
  { rewrite (rsum_nth v), <- sumn_const. apply sumn_le. intros i Hi. apply Hb, nth_In; lia. }
  split; apply Rmult_le_reg_l with (INR (length v)); try exact Hp; field_simplify; lra.
Qed.

Lemma mean_equal_weights v c s :
  v <> [] -> 0 < c ->
  weighted_mean v (WVec (map (fun _ => c) v)) = weighted_mean v (WScalar s).
Proof.
  intros Hv Hc. unfold weighted_mean.
  assert (Hp := INR_len_pos v Hv).
  rewrite rsum_map2_nth by now rewrite map_length.
  rewrite map_length, rsum_map_const.
  rewrite sumn_ext with (g := fun i => c * nth i v 0).
  - rewrite sumn_scal, <- rsum_nth. field. split; lra.
  - intros i Hi. now rewrite (nth_map_in _ v i 0 0).
Qed.

Lemma mean_scale_weights v w c :
  v <> [] -> length w = length v -> positive w -> 0 < c ->
  weighted_mean v (WVec (map (fun x => c * x) w)) = weighted_mean v (WVec w).
Proof.
  intros Hv Hl Hw Hc. unfold weighted_mean.
  assert (Hwn : w <> []) by (apply (nonnil_len v); auto).
  assert (Hp := rsum_positive w Hwn Hw).
  rewrite rsum_map2_nth by now rewrite map_length.
  rewrite rsum_map2_nth by exact Hl.
  rewrite map_length, rsum_map_scal, map_id.
  rewrite sumn_ext with (g := fun i => c * (nth i w 0 * nth i v 0)).
  - rewrite sumn_scal. field. split; lra.
  - intros i Hi. rewrite (nth_map_in _ w i 0 0) by lia. ring.
Qed.

Lemma mean_shift v w c :
  v <> [] -> length w = length v -> positive w ->
  weighted_mean (map (fun x => x + c) v) (WVec w) = weighted_mean v (WVec w) + c.
Proof.
  intros Hv Hl Hw. unfold weighted_mean.
  assert (Hwn : w <> []) by (apply (nonnil_len v); auto).
  assert (Hp := rsum_positive w Hwn Hw).
  rewrite rsum_map2_nth by now rewrite map_length.
  rewrite rsum_map2_nth by exact Hl.
  rewrite sumn_ext with (g := fun i => nth i w 0 * nth i v 0 + nth i w 0 * c).
  - rewrite sumn_plus, sumn_scal_r, <- rsum_nth. field. lra.
  - intros i Hi. rewrite (nth_map_in _ v i 0 0) by lia. ring.
Qed.

Lemma mean_scalar_shift v s c :
  v <> [] ->
  weighted_mean (map (fun x => x + c) v) (WScalar s) = weighted_mean v (WScalar s) + c.
Proof.
  intros Hv. unfold weighted_mean. assert (Hp := INR_len_pos v Hv).
  rewrite map_length, rsum_map_plus, map_id, rsum_map_const. field. lra.
Qed.

(* ---- variance and covariance as sums ---- *)
Definition wdev (v w : list R) (m : R) : R :=
  sumn (length w) (fun i => nth i w 0 * (nth i v 0 - m) ^ 2).

Lemma var_vec v w dof :
  length w = length v ->
  weighted_var v (WVec w) dof
  = wdev v w (weighted_mean v (WVec w)) / (rsum w - dof).
Proof.
  intros Hl. unfold weighted_var, wdev. now rewrite rsum_map2_nth by exact Hl.
Qed.

Lemma map_sqrt_sq w :
  (forall x, In x w -> 0 <= x) -> map sqrt (map2 Rmult w w) = w.
Proof.
  induction w as [|x w IH]; intros H; [reflexivity|]. cbn [map2 map].
  rewrite IH by (intros; apply H; now right). f_equal.
  apply sqrt_square. apply H; now left.
Qed.

Lemma cov_vec v1 v2 w dof :
  length w = length v1 -> length w = length v2 -> (forall x, In x w -> 0 <= x) ->
  weighted_cov v1 v2 (WVec w) (WVec w) dof
  = sumn (length w) (fun i => nth i w 0
        * (nth i v1 0 - weighted_mean v1 (WVec w))
        * (nth i v2 0 - weighted_mean v2 (WVec w)))
    / (rsum w - dof).
Proof.
  intros H1 H2 Hw. unfold weighted_cov. cbn [weight_mul].
  rewrite map_sqrt_sq by exact Hw. f_equal.
  rewrite rsum_map2_nth.
  2:{ rewrite length_map2, map_length by exact H1. exact H2. }
  rewrite length_map2 by exact H1. apply sumn_ext. intros i Hi.
  rewrite (nth_map2 _ w v1 i 0 0 0) by lia.
  rewrite (nth_map_in _ v2 i 0 0) by lia. reflexivity.
Qed.

Lemma var_is_cov v w dof :
  length w = length v -> positive w ->
  weighted_var v (WVec w) dof = weighted_cov v v (WVec w) (WVec w) dof.
Proof.
  intros Hl Hw. rewrite var_vec, cov_vec by (auto; intros; now apply Rlt_le, Hw).
  unfold wdev. f_equal. apply sumn_ext; intros i Hi. ring.
Qed.

Lemma rsum_map2_scalar_nth f v1 v2 :
  length v1 = length v2 -> rsum (map2 f v1 v2)
  = sumn (length v1) (fun i => f (nth i v1 0) (nth i v2 0)).
Proof. apply rsum_map2_nth. Qed.

Lemma var_is_cov_scalar v s1 s2 s3 dof :
  weighted_var v (WScalar s1) dof = weighted_cov v v (WScalar s2) (WScalar s3) dof.
Proof.
  unfold weighted_var, weighted_cov. cbn [weight_mul]. f_equal.
  rewrite rsum_map_nth, rsum_map2_nth by reflexivity.
  apply sumn_ext. intros i Hi. cbn [weighted_mean]. ring.
Qed.

Lemma cov_sym v1 v2 w1 w2 dof :
  length w1 = length v1 -> length w2 = length v2 -> length v1 = length v2 ->
  weighted_cov v1 v2 (WVec w1) (WVec w2) dof
  = weighted_cov v2 v1 (WVec w2) (WVec w1) dof.
Proof.
  intros H1 H2 H3. unfold weighted_cov. cbn [weight_mul].
  assert (E : map2 Rmult w1 w2 = map2 Rmult w2 w1).
  { apply nth_error_ext'. intros i. rewrite !nth_error_map2.
    destruct (nth_error w1 i), (nth_error w2 i); try reflexivity. f_equal; ring. }
  rewrite E. clear E.
  set (w3 := map sqrt (map2 Rmult w2 w1)).
  assert (Hl : length w3 = length v1)
    by (unfold w3; rewrite map_length, length_map2; lia).
  f_equal.
  rewrite !rsum_map2_nth by (rewrite length_map2, map_length; lia).
  rewrite !length_map2 by lia. apply sumn_ext. intros i Hi.
  rewrite (nth_map2 _ w3 v1 i 0 0 0), (nth_map2 _ w3 v2 i 0 0 0) by lia.
  rewrite (nth_map_in _ v2 i 0 0), (nth_map_in _ v1 i 0 0) by lia. ring.
Qed.

Lemma var_nonneg v w dof :
  length w = length v -> positive w -> dof < rsum w ->
  0 <= weighted_var v (WVec w) dof.
Proof.
  intros Hl Hw Hd. rewrite var_vec by exact Hl.
  apply Rmult_le_pos.
  - apply sumn_nonneg. intros i Hi. apply Rmult_le_pos.
    + apply Rlt_le, positive_nth; assumption.
    + apply pow2_ge_0.
  - apply Rlt_le, Rinv_0_lt_compat. lra.
Qed.

Lemma var_shift v w c dof :
  v <> [] -> length w = length v -> positive w ->
  weighted_var (map (fun x => x + c) v) (WVec w) dof = weighted_var v (WVec w) dof.
Proof.
  intros Hv Hl Hw. rewrite !var_vec by (rewrite ?map_length; exact Hl).
  rewrite mean_shift by assumption. unfold wdev. f_equal. apply sumn_ext. intros i Hi.
  rewrite (nth_map_in _ v i 0 0) by lia. ring.
Qed.

Lemma cov_shift v1 v2 w c d dof :
  v1 <> [] -> length w = length v1 -> length w = length v2 -> positive w ->
  weighted_cov (map (fun x => x + c) v1) (map (fun x => x + d) v2) (WVec w) (WVec w) dof
  = weighted_cov v1 v2 (WVec w) (WVec w) dof.
Proof.
  intros Hv H1 H2 Hw.
  assert (Hv2 : v2 <> []) by (apply (nonnil_len v1); [lia|assumption]).
  rewrite !cov_vec by (rewrite ?map_length; auto; intros; now apply Rlt_le, Hw).
  rewrite !mean_shift by assumption. f_equal. apply sumn_ext. intros i Hi.
  rewrite (nth_map_in _ v1 i 0 0), (nth_map_in _ v2 i 0 0) by lia. ring.
Qed.

Lemma cov_scale_weights v1 v2 w c :
  v1 <> [] -> length w = length v1 -> length w = length v2 -> positive w -> 0 < c ->
  let w' := WVec (map (fun x => c * x) w) in
  weighted_cov v1 v2 w' w' 0 = weighted_cov v1 v2 (WVec w) (WVec w) 0.
Proof.
  intros Hv H1 H2 Hw Hc w'. unfold w'.
  assert (Hv2 : v2 <> []) by (apply (nonnil_len v1); [lia|assumption]).
  assert (Hwn : w <> []) by (apply (nonnil_len v1); auto).
  assert (Hp := rsum_positive w Hwn Hw).
  rewrite !cov_vec.
  all: try (rewrite ?map_length; assumption).
  2:{ intros; now apply Rlt_le, Hw. }
  2:{ intros x Hx. apply in_map_iff in Hx as [y [<- Hy]].
      apply Rlt_le, Rmult_lt_0_compat; [exact Hc|now apply Hw]. }
  rewrite !mean_scale_weights by assumption.
  rewrite rsum_map_scal, map_id, map_length.
  rewrite sumn_ext with (g := fun i => c * (nth i w 0
        * (nth i v1 0 - weighted_mean v1 (WVec w))
        * (nth i v2 0 - weighted_mean v2 (WVec w)))).
  - rewrite sumn_scal. rewrite !Rminus_0_r. field. split; lra.
  - intros i Hi. rewrite (nth_map_in _ w i 0 0) by lia. ring.
Qed.

Lemma mean_sum v1 v2 w :
  v1 <> [] -> length w = length v1 -> length w = length v2 -> positive w ->
  weighted_mean (map2 Rplus v1 v2) (WVec w)
  = weighted_mean v1 (WVec w) + weighted_mean v2 (WVec w).
Proof.
  intros Hv H1 H2 Hw. unfold weighted_mean, Rdiv.
  assert (Hwn : w <> []) by (apply (nonnil_len v1); auto).
  assert (Hp := rsum_positive w Hwn Hw).
  rewrite !rsum_map2_nth by (rewrite ?length_map2; lia).
  rewrite <- Rmult_plus_distr_r, <- sumn_plus. f_equal.
  apply sumn_ext. intros i Hi. rewrite (nth_map2 _ v1 v2 i 0 0 0) by lia. ring.
Qed.

Lemma var_sum v1 v2 w dof :
  v1 <> [] -> length w = length v1 -> length w = length v2 -> positive w ->
  weighted_var (map2 Rplus v1 v2) (WVec w) dof
  = weighted_var v1 (WVec w) dof + weighted_var v2 (WVec w) dof
    + 2 * weighted_cov v1 v2 (WVec w) (WVec w) dof.
Proof.
  intros Hv H1 H2 Hw.
  rewrite !var_vec by (rewrite ?length_map2; lia).
  rewrite cov_vec by (auto; intros; now apply Rlt_le, Hw).
  rewrite mean_sum by assumption. unfold wdev, Rdiv.
  set (m1 := weighted_mean v1 (WVec w)). set (m2 := weighted_mean v2 (WVec w)).
  match goal with |- ?a * ?k = ?b * ?k + ?c * ?k + 2 * (?d * ?k) =>
    cut (a = b + c + 2 * d); [intros ->; ring|] end.
  rewrite <- sumn_scal, <- !sumn_plus. apply sumn_ext. intros i Hi.
  rewrite (nth_map2 _ v1 v2 i 0 0 0) by lia. ring.
Qed.

(* With equal weights and dof = 0 the weighted covariance is the plain one. *)
Lemma cov_equal_weights v1 v2 c s1 s2 :
  v1 <> [] -> length v1 = length v2 -> 0 < c ->
  let w := WVec (map (fun _ => c) v1) in
  weighted_cov v1 v2 w w 0 = weighted_cov v1 v2 (WScalar s1) (WScalar s2) 0.
Proof.
  intros Hv H12 Hc w. unfold w.
  assert (Hv2 : v2 <> []) by (apply (nonnil_len v1); assumption).
  assert (Hp := INR_len_pos v1 Hv).
  assert (E : map (fun _ => c) v1 = map (fun _ => c) v2).
  { revert H12. clear. revert v2. induction v1 as [|x v1 IH]; intros [|y v2] H;
      simpl in *; try lia; [reflexivity|]. f_equal. apply IH. lia. }
  rewrite cov_vec.
  2:{ now rewrite map_length. } 2:{ rewrite map_length; lia. }
  2:{ intros x Hx. apply in_map_iff in Hx as [y [<- _]]. lra. }
  rewrite (mean_equal_weights v1 c s1) by assumption.
  rewrite E, (mean_equal_weights v2 c s2) by assumption. rewrite <- E.
  unfold weighted_cov. cbn [weight_mul].
  rewrite rsum_map2_nth by exact H12. rewrite map_length, rsum_map_const.
  rewrite sumn_ext with (g := fun i => c * ((nth i v1 0 - weighted_mean v1 (WScalar s1))
        * (nth i v2 0 - weighted_mean v2 (WScalar s2)))).
  - rewrite sumn_scal. rewrite !Rminus_0_r. field. split; lra.
  - intros i Hi. rewrite (nth_map_in _ v1 i 0 0) by lia. ring.
Qed.
