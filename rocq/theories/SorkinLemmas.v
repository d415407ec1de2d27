From Coq Require Import Relations.
From Verif Require Import Base BaseLemmas SorkinModel SorkinSpec.
Local Open Scope R_scope.

Lemma M0_moves rows k j : M0 rows k j = INR (moves rows j k).
Proof.
  unfold M0, mover_rows. f_equal. induction rows as [|[m a b] rows IH]; cbn; [reflexivity|].
  destruct m; cbn; [|exact IH].
  destruct (a =? j)%nat; cbn; [destruct (b =? k)%nat; cbn|]; rewrite ?IH; reflexivity.
Qed.

Lemma moves_pos rows j k : (0 < moves rows j k)%nat <-> goes rows j k.
Proof.
  induction rows as [|r rows IH]; cbn [moves].
  - split; [lia|]. intros (r & [] & _).
  - split.
    + intro H. destruct (mv_m r && (mv_from r =? j)%nat && (mv_to r =? k)%nat) eqn:E.
      * apply andb_true_iff in E; destruct E as [E E3]. apply andb_true_iff in E; destruct E as [E1 E2].
        apply Nat.eqb_eq in E2; apply Nat.eqb_eq in E3. exists r; cbn; auto.
      * destruct (proj1 IH ltac:(lia)) as (r' & I & R). exists r'. split; [now right|exact R].
    + intros (r' & [<-|I] & E1 & E2 & E3).
      * rewrite E1. rewrite (proj2 (Nat.eqb_eq _ _) E2), (proj2 (Nat.eqb_eq _ _) E3). cbn; lia.
      * enough (0 < moves rows j k)%nat by lia. apply IH. exists r'; auto.
Qed.

Lemma bound_le ids nf : (forall i, In i ids -> (i < nf)%nat) -> (bound ids <= nf)%nat.
Proof.
  induction ids as [|i ids IH]; intro H; [cbn; lia|].
  change (bound (i :: ids)) with (Nat.max (S i) (bound ids)).
  assert (A := H i (or_introl eq_refl)).
  assert (B : (bound ids <= nf)%nat) by (apply IH; intros; apply H; now right). lia.
Qed.

Lemma bound_gt ids i : In i ids -> (i < bound ids)%nat.
Proof.
  induction ids as [|a ids IH]; [intros []|].
  change (bound (a :: ids)) with (Nat.max (S a) (bound ids)).
  intros [->|H]; [lia|]. specialize (IH H). lia.
Qed.

Lemma in_mover_rows rows r : In r (mover_rows rows) <-> In r rows /\ mv_m r = true.
Proof. unfold mover_rows. apply filter_In. Qed.

Lemma n_rows_eq rows nf : firms_ok rows nf -> n_rows rows = nf.
Proof.
  intros (N & B & _ & I). apply Nat.le_antisymm.
  - apply bound_le. intros i H. apply in_map_iff in H. destruct H as (r & <- & H).
    apply in_mover_rows in H. destruct H. now apply B.
  - destruct (I (nf - 1)%nat ltac:(lia)) as (r & Hr & Hm & E).
    assert (A : (mv_to r < bound (map mv_to (mover_rows rows)))%nat).
    { apply bound_gt, in_map, in_mover_rows. auto. }
    unfold n_rows. lia.
Qed.
Lemma n_cols_eq rows nf : firms_ok rows nf -> n_cols rows = nf.
Proof.
  intros (N & B & I & _). apply Nat.le_antisymm.
  - apply bound_le. intros i H. apply in_map_iff in H. destruct H as (r & <- & H).
    apply in_mover_rows in H. destruct H. now apply B.
  - destruct (I (nf - 1)%nat ltac:(lia)) as (r & Hr & Hm & E).
    assert (A : (mv_from r < bound (map mv_from (mover_rows rows)))%nat).
    { apply bound_gt, in_map, in_mover_rows. auto. }
    unfold n_cols. lia.
Qed.

Lemma sumn_pos_one n f k : (k < n)%nat -> 0 < f k -> (forall i, (i < n)%nat -> 0 <= f i) -> 0 < sumn n f.
Proof.
  intros L P N. induction n as [|n IH]; [lia|].
  rewrite sumn_S. assert (0 <= f n) by (apply N; lia).
  destruct (Nat.eq_dec k n) as [->|D].
  - assert (0 <= sumn n f) by (apply sumn_nonneg; intros; apply N; lia). lra.
  - assert (0 < sumn n f) by (apply IH; [lia|intros; apply N; lia]). lra.
Qed.
Lemma sumn_pos n f : (1 <= n)%nat -> (forall i, (i < n)%nat -> 0 < f i) -> 0 < sumn n f.
Proof. intros N P. apply sumn_pos_one with 0%nat; [lia|apply P; lia|]. intros; apply Rlt_le, P; assumption. Qed.

Section Flows.
Variables (rows : list move) (nf : nat).
Hypothesis OK : firms_ok rows nf.

Definition out (k : nat) : R := sumn nf (fun j => INR (moves rows k j)).

Lemma nf_pos : (1 <= nf)%nat. Proof. apply OK. Qed.
Lemma nf_R : 0 < INR nf. Proof. apply lt_0_INR. pose proof nf_pos. lia. Qed.

Lemma S0_out k : S0 rows k = out k.
Proof.
  unfold S0, out. rewrite (n_rows_eq rows nf OK). apply sumn_ext. intros. apply M0_moves.
Qed.

Lemma out_pos k : (k < nf)%nat -> 0 < out k.
Proof.
  intro L. destruct OK as (_ & B & O & _). destruct (O k L) as (r & I & M & E).
  assert (G : (0 < moves rows k (mv_to r))%nat) by (apply moves_pos; exists r; auto).
  apply sumn_pos_one with (mv_to r); [now apply (B r I M)|apply lt_0_INR, G|intros; apply pos_INR].
Qed.

Lemma inflow_pos v k : positive nf v -> (k < nf)%nat -> 0 < inflow rows nf v k.
Proof.
  intros P L. destruct OK as (_ & B & _ & O). destruct (O k L) as (r & I & M & E).
  assert (G : (0 < moves rows (mv_from r) k)%nat) by (apply moves_pos; exists r; auto).
  destruct (B r I M) as [F _].
  apply sumn_pos_one with (mv_from r); [exact F| |].
  - apply Rmult_lt_0_compat; [apply lt_0_INR, G|apply P, F].
  - intros i Li. apply Rmult_le_pos; [apply pos_INR|apply Rlt_le, P, Li].
Qed.

Lemma lhs_sum v k : sumn nf (fun j => lhs rows k j * v j) = inflow rows nf v k / out k.
Proof.
  unfold inflow. unfold Rdiv at 1. rewrite <- sumn_scal_r. apply sumn_ext. intros j Lj.
  unfold lhs. rewrite M0_moves, S0_out. unfold Rdiv. ring.
Qed.

Definition scale (v : nat -> R) : R := sumn nf (fun k => inflow rows nf v k / out k).

Lemma ratio_pos v k : positive nf v -> (k < nf)%nat -> 0 < inflow rows nf v k / out k.
Proof. intros P L. apply Rdiv_lt_0_compat; [now apply inflow_pos|now apply out_pos]. Qed.

Lemma scale_pos v : positive nf v -> 0 < scale v.
Proof. intro P. apply sumn_pos; [apply nf_pos|]. intros; now apply ratio_pos. Qed.

Lemma next_eq v k : positive nf v -> (k < nf)%nat ->
  next_guess rows nf v k = inflow rows nf v k / out k / scale v.
Proof.
  intros P L. unfold next_guess.
  assert (E : forall i, (i < nf)%nat ->
     Rabs (sumn nf (fun j => lhs rows i j * v j)) = inflow rows nf v i / out i).
  { intros i Li. rewrite lhs_sum. apply Rabs_right. apply Rle_ge, Rlt_le. now apply ratio_pos. }
  f_equal; [now apply E|]. unfold scale. now apply sumn_ext.
Qed.

Lemma next_pos v : positive nf v -> positive nf (next_guess rows nf v).
Proof.
  intros P k L. rewrite next_eq by assumption.
  apply Rdiv_lt_0_compat; [now apply ratio_pos|now apply scale_pos].
Qed.

Lemma next_sum v : positive nf v -> sumn nf (next_guess rows nf v) = 1.
Proof.
  intro P. assert (S := scale_pos v P).
  rewrite (sumn_ext nf _ (fun k => / scale v * (inflow rows nf v k / out k))).
  - rewrite sumn_scal.
    change (sumn nf (fun i => inflow rows nf v i / out i)) with (scale v). field. lra.
  - intros k L. rewrite next_eq by assumption. unfold Rdiv. ring.
Qed.

(* out-weighted sum is the same for v and lhs v *)
Lemma total_flow v : sumn nf (inflow rows nf v) = sumn nf (outflow rows nf v).
Proof.
  unfold inflow. rewrite sumn_swap. apply sumn_ext. intros j Lj.
  unfold outflow. rewrite <- sumn_scal_r. reflexivity.
Qed.

Lemma next_flow v k : positive nf v -> (k < nf)%nat ->
  outflow rows nf (next_guess rows nf v) k * scale v = inflow rows nf v k.
Proof.
  intros P L. unfold outflow. change (sumn nf (fun j => INR (moves rows k j))) with (out k).
  rewrite next_eq by assumption. assert (A := out_pos k L). assert (B := scale_pos v P). field. lra.
Qed.

(* the reported change is small: bounds *)
Lemma small_spec th new prev : small_change nf th new prev = true <->
  forall k, (k < nf)%nat -> prev k <> 0 /\ Rabs ((new k - prev k) / prev k) <= th.
Proof.
  unfold small_change. rewrite forallb_forall. split.
  - intros H k L. specialize (H k ltac:(apply in_seq; lia)). cbn beta in H.
    destruct (Req_EM_T (prev k) 0); [discriminate|]. destruct (Rle_dec _ th); [tauto|discriminate].
  - intros H k I. apply in_seq in I. destruct (H k ltac:(lia)) as [A B].
    destruct (Req_EM_T (prev k) 0); [contradiction|]. destruct (Rle_dec _ th); [reflexivity|contradiction].
Qed.

Lemma rel_bounds a b th : 0 < b -> Rabs ((a - b) / b) <= th -> (1 - th) * b <= a <= (1 + th) * b.
Proof.
  intros B H. assert (E : a = b + (a - b) / b * b) by (field; lra).
  assert (H1 := Rle_abs ((a - b) / b)). assert (H2 := Rle_abs (- ((a - b) / b))).
  rewrite Rabs_Ropp in H2.
  assert (H3 : - th * b <= (a - b) / b * b) by (apply Rmult_le_compat_r; lra).
  assert (H4 : (a - b) / b * b <= th * b) by (apply Rmult_le_compat_r; lra). lra.
Qed.

Lemma outflow_le v w c k : (k < nf)%nat -> v k <= c * w k -> outflow rows nf v k <= c * outflow rows nf w k.
Proof.
  intros L H. unfold outflow. assert (A := out_pos k L). unfold out in A.
  replace (c * (sumn nf (fun j => INR (moves rows k j)) * w k))
    with (sumn nf (fun j => INR (moves rows k j)) * (c * w k)) by ring.
  apply Rmult_le_compat_l; lra.
Qed.
Lemma outflow_ge v w c k : (k < nf)%nat -> c * w k <= v k -> c * outflow rows nf w k <= outflow rows nf v k.
Proof.
  intros L H. unfold outflow. assert (A := out_pos k L). unfold out in A.
  replace (c * (sumn nf (fun j => INR (moves rows k j)) * w k))
    with (sumn nf (fun j => INR (moves rows k j)) * (c * w k)) by ring.
  apply Rmult_le_compat_l; lra.
Qed.
Lemma inflow_le v w c k : (forall j, (j < nf)%nat -> v j <= c * w j) -> inflow rows nf v k <= c * inflow rows nf w k.
Proof.
  intro H. unfold inflow. rewrite <- sumn_scal. apply sumn_le. intros j L.
  assert (A := pos_INR (moves rows j k)). specialize (H j L).
  replace (c * (INR (moves rows j k) * w j)) with (INR (moves rows j k) * (c * w j)) by ring.
  now apply Rmult_le_compat_l.
Qed.
Lemma inflow_ge v w c k : (forall j, (j < nf)%nat -> c * w j <= v j) -> c * inflow rows nf w k <= inflow rows nf v k.
Proof.
  intro H. unfold inflow. rewrite <- sumn_scal. apply sumn_le. intros j L.
  assert (A := pos_INR (moves rows j k)). specialize (H j L).
  replace (c * (INR (moves rows j k) * w j)) with (INR (moves rows j k) * (c * w j)) by ring.
  now apply Rmult_le_compat_l.
Qed.

Lemma outflow_pos v k : positive nf v -> (k < nf)%nat -> 0 < outflow rows nf v k.
Proof. intros P L. unfold outflow. apply Rmult_lt_0_compat; [apply out_pos, L|apply P, L]. Qed.

Definition balanced (th : R) (v : nat -> R) : Prop :=
  forall k, (k < nf)%nat ->
    (1 - th) / (1 + th) * outflow rows nf v k <= inflow rows nf v k
    <= (1 + th) / (1 - th) * outflow rows nf v k.

Lemma scale_bounds th v : 0 <= th < 1 -> positive nf v ->
  small_change nf th (next_guess rows nf v) v = true ->
  scale v * (1 - th) <= 1 <= scale v * (1 + th).
Proof.
  intros T P H. assert (H0 := proj1 (small_spec _ _ _) H); clear H; rename H0 into H.
  set (g := next_guess rows nf v) in *.
  assert (B : forall k, (k < nf)%nat -> (1 - th) * v k <= g k <= (1 + th) * v k).
  { intros k L. apply rel_bounds; [now apply P|now apply H]. }
  assert (S := scale_pos v P).
  assert (T1 : sumn nf (outflow rows nf v) = scale v * sumn nf (outflow rows nf g)).
  { rewrite <- total_flow, <- sumn_scal. apply sumn_ext. intros k L.
    rewrite <- (next_flow v k P L). unfold g. ring. }
  assert (U : 0 < sumn nf (outflow rows nf v)) by (apply sumn_pos; [apply nf_pos|intros; now apply outflow_pos]).
  assert (L1 : (1 - th) * sumn nf (outflow rows nf v) <= sumn nf (outflow rows nf g)).
  { rewrite <- sumn_scal. apply sumn_le. intros k L. apply outflow_ge; [exact L|now apply B]. }
  assert (L2 : sumn nf (outflow rows nf g) <= (1 + th) * sumn nf (outflow rows nf v)).
  { rewrite <- sumn_scal. apply sumn_le. intros k L. apply outflow_le; [exact L|now apply B]. }
  set (a := sumn nf (outflow rows nf v)) in *. set (b := sumn nf (outflow rows nf g)) in *.
  split.
  - apply Rmult_le_reg_r with a; [exact U|].
    replace (scale v * (1 - th) * a) with (scale v * ((1 - th) * a)) by ring.
    apply Rle_trans with (scale v * b); [apply Rmult_le_compat_l; lra|lra].
  - apply Rmult_le_reg_r with a; [exact U|].
    replace (scale v * (1 + th) * a) with (scale v * ((1 + th) * a)) by ring.
    apply Rle_trans with (scale v * b); [lra|apply Rmult_le_compat_l; lra].
Qed.

Lemma stop_balanced th v : 0 <= th < 1 -> positive nf v ->
  small_change nf th (next_guess rows nf v) v = true -> balanced th (next_guess rows nf v).
Proof.
  intros T P H. assert (SB := scale_bounds th v T P H). assert (H0 := proj1 (small_spec _ _ _) H); clear H; rename H0 into H.
  set (g := next_guess rows nf v) in *.
  assert (B : forall k, (k < nf)%nat -> (1 - th) * v k <= g k <= (1 + th) * v k).
  { intros k L. apply rel_bounds; [now apply P|now apply H]. }
  intros k L.
  assert (F := next_flow v k P L). fold g in F.
  assert (I1 : (1 - th) * inflow rows nf v k <= inflow rows nf g k) by (apply inflow_ge; intros; now apply B).
  assert (I2 : inflow rows nf g k <= (1 + th) * inflow rows nf v k) by (apply inflow_le; intros; now apply B).
  assert (O := outflow_pos g k (next_pos v P) L). rewrite <- F in I1, I2.
  set (o := outflow rows nf g k) in *. set (s := scale v) in *.
  split.
  - apply Rle_trans with ((1 - th) * (o * s)); [|exact I1].
    replace ((1 - th) / (1 + th) * o) with ((1 - th) * (o * (1 / (1 + th)))) by (field; lra).
    apply Rmult_le_compat_l; [lra|]. apply Rmult_le_compat_l; [lra|].
    apply Rmult_le_reg_r with (1 + th); [lra|]. replace (1 / (1 + th) * (1 + th)) with 1 by (field; lra). lra.
  - apply Rle_trans with ((1 + th) * (o * s)); [exact I2|].
    replace ((1 + th) / (1 - th) * o) with ((1 + th) * (o * (1 / (1 - th)))) by (field; lra).
    apply Rmult_le_compat_l; [lra|]. apply Rmult_le_compat_l; [lra|].
    apply Rmult_le_reg_r with (1 - th); [lra|]. replace (1 / (1 - th) * (1 - th)) with 1 by (field; lra). lra.
Qed.

(* an exact fixed point *)
Lemma change_ext th g g' v : (forall k, (k < nf)%nat -> g k = g' k) ->
  small_change nf th g v = small_change nf th g' v.
Proof.
  intro E. destruct (small_change nf th g' v) eqn:H.
  - apply small_spec. intros k L. rewrite (E k L). now apply (proj1 (small_spec _ _ _) H).
  - destruct (small_change nf th g v) eqn:H'; [|reflexivity].
    enough (small_change nf th g' v = true) by congruence.
    apply small_spec. intros k L. rewrite <- (E k L). now apply (proj1 (small_spec _ _ _) H').
Qed.
Lemma next_ext v w : positive nf v -> (forall k, (k < nf)%nat -> v k = w k) ->
  forall k, (k < nf)%nat -> next_guess rows nf v k = next_guess rows nf w k.
Proof.
  intros P E k L.
  assert (P' : positive nf w) by (intros j Lj; rewrite <- E by exact Lj; now apply P).
  rewrite !next_eq by assumption.
  assert (I : forall i, inflow rows nf v i = inflow rows nf w i).
  { intro i. apply sumn_ext. intros j Lj. now rewrite E. }
  rewrite I. f_equal. unfold scale. apply sumn_ext. intros. now rewrite I.
Qed.
Lemma balanced_ext th v w : (forall k, (k < nf)%nat -> v k = w k) -> balanced th v -> balanced th w.
Proof.
  intros E B k L. specialize (B k L).
  replace (inflow rows nf w k) with (inflow rows nf v k) by (apply sumn_ext; intros j Lj; now rewrite E).
  replace (outflow rows nf w k) with (outflow rows nf v k) by (unfold outflow; now rewrite E).
  exact B.
Qed.

(* ------------------------------------------------------------------ *)
(* The loop: the result is next_guess of a positive vector. *)
Lemma iterate_pos n th new prev g : positive nf prev ->
  (match new with Some h => positive nf h /\ sumn nf h = 1 | None => True end) ->
  iterate n rows nf th new prev = Ok g -> positive nf g /\ sumn nf g = 1.
Proof.
  revert new prev. induction n as [|n IH]; intros new prev P N H; cbn in H.
  - destruct new; [|discriminate]. injection H as <-. exact N.
  - assert (N' : positive nf (next_guess rows nf prev) /\ sumn nf (next_guess rows nf prev) = 1)
      by (split; [now apply next_pos|now apply next_sum]).
    destruct (small_change nf th (next_guess rows nf prev) prev).
    + injection H as <-. exact N'.
    + exact (IH (Some _) _ (proj1 N') N' H).
Qed.

Lemma iterate_more n th new prev g g' : 0 <= th < 1 -> positive nf prev ->
  (new = None \/ new = Some prev) ->
  iterate n rows nf th new prev = Ok g -> iterate (S n) rows nf th new prev = Ok g' ->
  (forall k, (k < nf)%nat -> g k = g' k) -> balanced th g.
Proof.
  intro T. revert new prev. induction n as [|n IH]; intros new prev P N H H' E.
  - cbn in H. destruct N as [->| ->]; [discriminate|]. injection H as <-.
    cbn in H'. set (h := next_guess rows nf prev) in *.
    assert (Q : forall k, (k < nf)%nat -> prev k = h k).
    { intros k L. rewrite (E k L). destruct (small_change nf th h prev); injection H' as <-; reflexivity. }
    apply balanced_ext with h; [intros; symmetry; now apply Q|]. apply stop_balanced; [exact T|exact P|].
    apply small_spec. intros k L. fold h. rewrite <- (Q k L). assert (A := P k L). split; [lra|].
    unfold Rminus. rewrite Rplus_opp_r. unfold Rdiv. rewrite Rmult_0_l, Rabs_R0. lra.
  - assert (H2 : forall m, iterate (S m) rows nf th new prev =
        (let h := next_guess rows nf prev in
         if small_change nf th h prev then Ok h else iterate m rows nf th (Some h) h)) by reflexivity.
    rewrite H2 in H, H'. cbv zeta in H, H'. set (h := next_guess rows nf prev) in *.
    destruct (small_change nf th h prev) eqn:C.
    + injection H as <-. now apply stop_balanced.
    + eapply IH; [|right; reflexivity|exact H|exact H'|exact E]. now apply next_pos.
Qed.

Lemma iterate_ok n th new prev : (new <> None \/ (0 < n)%nat) -> exists g, iterate n rows nf th new prev = Ok g.
Proof.
  revert new prev. induction n as [|n IH]; intros new prev N; cbn.
  - destruct new; [eauto|]. destruct N; [congruence|lia].
  - destruct (small_change nf th (next_guess rows nf prev) prev); [eauto|]. apply IH. left; discriminate.
Qed.

Lemma has_inf_false : has_inf rows = false.
Proof.
  unfold has_inf. destruct (existsb _ _) eqn:E; [|reflexivity].
  apply existsb_exists in E. destruct E as (r & I & D). apply in_mover_rows in I. destruct I as [I M].
  destruct OK as (_ & B & _). destruct (B r I M) as [_ L].
  destruct (Req_EM_T (S0 rows (mv_to r)) 0) as [Z|]; [|discriminate].
  rewrite S0_out in Z. assert (A := out_pos _ L). lra.
Qed.

Lemma mover_rows_nonempty : mover_rows rows <> [].
Proof.
  destruct OK as (N & _ & O & _). destruct (O 0%nat ltac:(lia)) as (r & I & M & _).
  intro E. assert (H : In r (mover_rows rows)) by (apply in_mover_rows; auto). rewrite E in H. destruct H.
Qed.

Definition start : nat -> R := fun _ => 1 / INR nf.
Lemma start_pos : positive nf start.
Proof. intros k _. unfold start. apply Rdiv_lt_0_compat; [lra|apply nf_R]. Qed.

Lemma fit_eq n th : fit rows n th =
  bind (iterate n rows nf th None start) (fun g => Ok (map (fun k => np_log (g k)) (range nf))).
Proof.
  unfold fit. rewrite (n_rows_eq rows nf OK), (n_cols_eq rows nf OK), Nat.ltb_irrefl, has_inf_false.
  destruct (mover_rows rows) eqn:E; [now destruct mover_rows_nonempty|]. reflexivity.
Qed.

Lemma np_log_pos x : 0 < x -> np_log x = Some (ln x).
Proof. intro P. unfold np_log. destruct (Req_EM_T x 0); [lra|reflexivity]. Qed.

Lemma log_map g : positive nf g -> map (fun k => np_log (g k)) (range nf) = log_values nf g.
Proof.
  intro P. apply map_ext_in. intros k I. apply in_seq in I. apply np_log_pos, P. lia.
Qed.

Lemma log_inj v w : positive nf v -> positive nf w -> log_values nf v = log_values nf w ->
  forall k, (k < nf)%nat -> v k = w k.
Proof.
  intros P Q E k L.
  assert (A : nth_error (log_values nf v) k = nth_error (log_values nf w) k) by now rewrite E.
  unfold log_values in A. rewrite !nth_error_map, !nth_error_range in A by exact L. cbn in A.
  injection A as A. apply ln_inv; [now apply P|now apply Q|exact A].
Qed.

Lemma fit_values n th : (1 <= n)%nat -> exists v, fit rows n th = Ok (log_values nf v)
  /\ positive nf v /\ sumn nf v = 1.
Proof.
  intro N. destruct (iterate_ok n th None start) as [g G]; [right; lia|].
  destruct (iterate_pos n th None start g start_pos I G) as [P S].
  exists g. rewrite fit_eq, G. cbn. rewrite log_map by exact P. auto.
Qed.

Lemma fit_balanced n th V : 0 <= th < 1 -> fit rows n th = Ok V -> fit rows (S n) th = Ok V ->
  exists v, V = log_values nf v /\ positive nf v /\ sumn nf v = 1 /\ balanced th v.
Proof.
  intros T H H'. rewrite fit_eq in H, H'.
  destruct (iterate n rows nf th None start) as [g|] eqn:G; [|discriminate].
  destruct (iterate (S n) rows nf th None start) as [g'|] eqn:G'; [|discriminate].
  cbn in H, H'.
  destruct (iterate_pos n th None start g start_pos I G) as [P S].
  destruct (iterate_pos (Datatypes.S n) th None start g' start_pos I G') as [P' S'].
  rewrite log_map in H by exact P. rewrite log_map in H' by exact P'.
  exists g. split; [congruence|]. split; [exact P|]. split; [exact S|].
  eapply iterate_more; [exact T|exact start_pos|left; reflexivity|exact G|exact G'|].
  apply log_inj; [exact P|exact P'|congruence].
Qed.
End Flows.

(* ------------------------------------------------------------------ *)
(* Uniqueness up to scale. *)
Lemma argmax nf (f : nat -> R) : (1 <= nf)%nat ->
  exists k, (k < nf)%nat /\ forall j, (j < nf)%nat -> f j <= f k.
Proof.
  induction nf as [|nf IH]; intro N; [lia|]. destruct nf as [|nf].
  - exists 0%nat. split; [lia|]. intros j L. replace j with 0%nat by lia. lra.
  - destruct (IH ltac:(lia)) as (k & L & M).
    destruct (Rle_dec (f (S nf)) (f k)) as [H|H].
    + exists k. split; [lia|]. intros j Lj. destruct (Nat.eq_dec j (S nf)) as [->|D]; [exact H|apply M; lia].
    + exists (S nf). split; [lia|]. intros j Lj. destruct (Nat.eq_dec j (S nf)) as [->|D]; [lra|].
      assert (f j <= f k) by (apply M; lia). lra.
Qed.

Lemma sumn_zero_nonneg n f : (forall i, (i < n)%nat -> 0 <= f i) -> sumn n f = 0 ->
  forall i, (i < n)%nat -> f i = 0.
Proof.
  intros N Z i L. destruct (Rle_lt_or_eq_dec 0 (f i) (N i L)) as [P|E]; [|lra].
  assert (0 < sumn n f) by (now apply sumn_pos_one with i). lra.
Qed.

Lemma flow_unique rows nf v w : firms_ok rows nf -> strongly_connected rows nf ->
  positive nf v -> positive nf w -> flow_equations rows nf v -> flow_equations rows nf w ->
  exists c, 0 < c /\ forall k, (k < nf)%nat -> v k = c * w k.
Proof.
  intros OK SC P Q Fv Fw.
  destruct (argmax nf (fun k => v k / w k)) as (m & Lm & M); [apply OK|].
  set (c := v m / w m).
  assert (C : 0 < c) by (apply Rdiv_lt_0_compat; [now apply P|now apply Q]).
  assert (U : forall j, (j < nf)%nat -> v j <= c * w j).
  { intros j L. specialize (M j L). cbn beta in M. fold c in M. assert (A := Q j L).
    replace (v j) with (v j / w j * w j) by (field; lra). apply Rmult_le_compat_r; lra. }
  exists c. split; [exact C|].
  assert (step : forall k, (k < nf)%nat -> v k = c * w k ->
            forall j, (j < nf)%nat -> goes rows j k -> v j = c * w j).
  { intros k L E j Lj G.
    assert (Z : sumn nf (fun i => INR (moves rows i k) * (c * w i - v i)) = 0).
    { rewrite (sumn_ext nf _ (fun i => c * (INR (moves rows i k) * w i) - INR (moves rows i k) * v i))
        by (intros; ring).
      rewrite sumn_minus, sumn_scal.
      change (c * inflow rows nf w k - inflow rows nf v k = 0).
      rewrite Fv, Fw by exact L. unfold outflow. rewrite E. ring. }
    assert (N : forall i, (i < nf)%nat -> 0 <= INR (moves rows i k) * (c * w i - v i)).
    { intros i Li. apply Rmult_le_pos; [apply pos_INR|]. specialize (U i Li). lra. }
    assert (A := sumn_zero_nonneg nf _ N Z j Lj). cbn beta in A.
    assert (B : 0 < INR (moves rows j k)) by (apply lt_0_INR, moves_pos, G).
    apply Rmult_integral in A. lra. }
  assert (Em : v m = c * w m) by (unfold c; assert (A := Q m Lm); field; lra).
  intros k L.
  assert (path : forall a b, clos_refl_trans nat (goes rows) a b ->
            (b < nf)%nat -> v b = c * w b -> (a < nf)%nat /\ v a = c * w a).
  { intros a b R. induction R as [a b G|a|a b d R1 IH1 R2 IH2]; intros L' E'.
    - assert (La : (a < nf)%nat).
      { destruct G as (r & I & Mv & <- & _). destruct OK as (_ & B & _). now apply (B r I Mv). }
      split; [exact La|]. now apply (step b L' E' a La).
    - auto.
    - destruct (IH2 L' E') as [Lb Eb]. now apply IH1. }
  destruct (path k m (SC k m L Lm) Lm Em). assumption.
Qed.

Lemma balanced_0 rows nf v : balanced rows nf 0 v <-> flow_equations rows nf v.
Proof.
  unfold balanced, flow_equations. split; intros H k L; specialize (H k L).
  - replace ((1 - 0) / (1 + 0)) with 1 in H by field. replace ((1 + 0) / (1 - 0)) with 1 in H by field. lra.
  - replace ((1 - 0) / (1 + 0)) with 1 by field. replace ((1 + 0) / (1 - 0)) with 1 by field. lra.
Qed.
