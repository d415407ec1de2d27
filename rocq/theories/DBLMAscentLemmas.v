(* When the likelihood of the dynamic BLM estimator does not fall. *)
From Verif Require Import Base BaseLemmas UtilModel UtilSpec ConsModel ConsSpec
  BLMModel BLMEMModel BLMSpec BLMSortLemmas BLMEMLemmas BLMAscentLemmas BLMAscendLemmas
  BLMFitModel DBLMModel DBLMSpec DBLMEMSpec DBLMLikLemmas DBLMStepLemmas DBLMEMLemmas DBLMEM2Lemmas.
From Coq Require Import Sorted.
Local Open Scope R_scope.

(* new proportions: the shares of the posteriors, or the old ones *)
Lemma em_gain (key : dobs -> nat) (f f' : dobs -> nat -> R) (n nl : nat) (pi pi' : mat) data :
  (0 < nl)%nat -> (forall o, In o data -> (key o < n)%nat) ->
  (forall o l, In o data -> (l < nl)%nat -> 0 < f o l) ->
  (forall o l, In o data -> (l < nl)%nat -> 0 < f' o l) ->
  (forall o l, In o data -> (l < nl)%nat -> 0 < pi (key o) l) ->
  (forall o, In o data -> sumn nl (pi (key o)) = 1) ->
  let q := fun o l => pi (key o) l * f o l / mixture nl (pi (key o)) (f o) in
  ((forall o l, In o data -> (l < nl)%nat -> pi' (key o) l = pi (key o) l) \/
   (forall o l, In o data -> (l < nl)%nat ->
      pi' (key o) l = kcount 1 key q data (key o) l / sumn nl (kcount 1 key q data (key o)))) ->
  0 <= rsum (map (fun o => sumn nl (fun l => q o l * (ln (f' o l) - ln (f o l)))) data) ->
  (forall o, In o data -> (forall l, (l < nl)%nat -> 0 < pi' (key o) l) /\ sumn nl (pi' (key o)) = 1) /\
  rsum (map (fun o => ln (mixture nl (pi (key o)) (f o))) data)
  <= rsum (map (fun o => ln (mixture nl (pi' (key o)) (f' o))) data).
Proof.
  intros Hnl Hk Hf Hf' Hpi Hone q Hup Hgain.
  assert (Qp : forall o l, In o data -> (l < nl)%nat -> 0 < q o l)
    by (intros o l Ho Hl; apply (q_pos key f nl pi data); auto).
  assert (Q1 : forall o, In o data -> sumn nl (q o) = 1)
    by (intros o Ho; apply (q_one key f nl pi data); auto).
  set (N := fun k => rsum (map (fun o => if (key o =? k)%nat then 1 else 0) data)).
  assert (Ksum : forall o, In o data -> sumn nl (kcount 1 key q data (key o)) = N (key o)).
  { intros o Ho. unfold kcount, N. rewrite <- rsum_sumn_swap. apply rsum_map_ext. intros b Hb.
    destruct (key b =? key o)%nat; [|now apply sumn_zero].
    rewrite (sumn_ext nl _ (q b)) by (intros; ring). now apply Q1. }
  assert (NP : forall o, In o data -> 0 < N (key o))
    by (intros o Ho; apply (weight_pos key (fun _ => 1)); [intros; lra|exists o; auto]).
  assert (P' : forall o, In o data -> (forall l, (l < nl)%nat -> 0 < pi' (key o) l) /\ sumn nl (pi' (key o)) = 1).
  { intros o Ho. destruct Hup as [Hup|Hup].
    - split; [intros l Hl; rewrite Hup; auto|]. rewrite <- (Hone o Ho). apply sumn_ext. intros; now apply Hup.
    - split.
      + intros l Hl. rewrite Hup by auto. apply Rdiv_lt_0_compat; [|rewrite Ksum by exact Ho; auto].
        apply (kcount_pos nl); auto; [lra|]. now exists o.
      + rewrite (sumn_ext nl _ (fun l => kcount 1 key q data (key o) l * / sumn nl (kcount 1 key q data (key o))))
          by (intros; now apply Hup).
        rewrite sumn_scal_r. apply Rinv_r. rewrite Ksum by exact Ho. pose proof (NP o Ho). lra. }
  split; [exact P'|].
  assert (PG : 0 <= rsum (map (fun o => sumn nl (fun l => q o l * (ln (pi' (key o) l) - ln (pi (key o) l)))) data)).
  { destruct Hup as [Hup|Hup].
    - rewrite rsum_zero; [lra|]. intros o Ho.
      apply sumn_zero. intros l Hl. rewrite Hup by auto. ring.
    - apply (prior_gain key q 1 n nl pi pi' data); auto; [lra|intros; now apply P'|].
      intros o l Ho Hl. fold (N (key o)). rewrite Hup, Ksum by auto.
      pose proof (NP o Ho) as HN. unfold Rdiv. rewrite Rmult_1_r, Rmult_assoc, Rinv_l by lra.
      unfold kcount. rewrite Rmult_1_r. apply rsum_map_ext. intros b _. destruct (key b =? key o)%nat; lra. }
  pose proof (step_gain key f f' nl pi pi' data Hnl Hf Hf' Hpi (fun o l Ho => proj1 (P' o Ho) l) Hgain) as G.
  fold q in G. cbn beta in G.
  eapply Rle_trans; [|exact G].
  match goal with |- ?a <= ?a + ?b => enough (0 <= b) by lra end. exact PG.
Qed.

Lemma ln_normal_same y m m' sd : 0 < sd ->
  ln (normal_density y m' sd) - ln (normal_density y m sd)
  = ((y - m) ^ 2 - (y - m') ^ 2) / (2 * sd ^ 2).
Proof. intros H. rewrite !ln_normal by exact H. field. lra. Qed.

Section Movers.
Variable solver : nat -> mat -> list R -> problem -> qpres.
Variables (nl nk : nat) (c : dsettings) (data : list dobs).
Hypothesis nl_pos : (0 < nl)%nat.
Hypothesis no_rho : up_rho12 c = false /\ up_rho43 c = false /\ up_rho32m c = false.
Hypothesis no_s : up_s c = false.
Hypothesis flat_prior : dd_prior c = 1.
Hypothesis no_ridge : up_a c = true -> d_X_diag c <= 1.

(* all variances of all observations equal v *)
Definition good (v : R) (p : dpar) : Prop :=
  (forall o, In o data -> dmover_ok nl nk p o) /\
  (forall o, In o data -> sumn nl (dpk1 p (dg1 o + nk * dg4 o)%nat) = 1) /\
  (up_a c = true -> equal_variances nl data v p /\ A_feasible nl nk c (dA p) (dAb p)).

Lemma density_gain v p p' o l :
  dS p' = dS p -> dSb p' = dSb p -> R12 p' = R12 p -> R43 p' = R43 p -> R32m p' = R32m p ->
  dmover_ok nl nk p o -> (l < nl)%nat -> In o data -> equal_variances nl data v p -> 0 < v ->
  ln (dmover_density p' o l) - ln (dmover_density p o l)
  = (mover_fit p (dA p) (dAb p) o l - mover_fit p (dA p') (dAb p') o l) / (2 * sqrt v).
Proof.
  intros E1 E2 E3 E4 E5 Ho Hl Hin HV Hv. unfold dmover_density, mover_fit, sqdev.
  destruct (HV o l Hin Hl) as (V1 & V2 & V3 & V4).
  unfold mean1, mean3, mean4, dvar1, dvar3, dvar4 in *. rewrite !E1, !E2, !E3, !E4, !E5.
  rewrite !V1, !V3, !V4, !V2.
  assert (Sv : 0 < sqrt v) by now apply sqrt_lt_R0.
  assert (P : forall y m, 0 < normal_density y m (sqrt v)) by (intros; now apply normal_density_pos).
  rewrite !ln_mult by (repeat (apply Rmult_lt_0_compat; [|apply P]); apply P).
  match goal with |- ln ?a' + ln ?b' + ln ?c' + ln ?d' - (ln ?a + ln ?b + ln ?c0 + ln ?d) = _ =>
    replace (ln a' + ln b' + ln c' + ln d' - (ln a + ln b + ln c0 + ln d))
      with ((ln a' - ln a) + (ln b' - ln b) + (ln c' - ln c0) + (ln d' - ln d)) by ring end.
  rewrite !ln_normal_same by exact Sv. field. lra.
Qed.

Lemma step_ascent v iter p p' : 0 < v -> good v p -> mover_step solver nl nk c data iter p p' ->
  good v p' /\ dmovers_loglik nl nk p data <= dmovers_loglik nl nk p' data.
Proof.
  intros Hv (Hok & Hone & HA) Hs. destruct no_rho as (r1 & r2 & r3).
  destruct Hs as [S1 S2 S3 S4 S5 S6 _ _].
  assert (Rt : rho_turn c iter = false) by (unfold rho_turn; now rewrite r1, r2, r3).
  rewrite Rt, no_s in *. cbn [andb negb] in *. destruct S6 as [ES ESb].
  set (key := fun o => (dg1 o + nk * dg4 o)%nat).
  assert (Kb : forall o, In o data -> (dg1 o < nk)%nat /\ (dg4 o < nk)%nat)
    by (intros o Ho; destruct (Hok o Ho) as (? & ? & _); now split).
  assert (Ppk : forall o l, In o data -> (l < nl)%nat -> 0 < dpk1 p (key o) l)
    by (intros o l Ho Hl; destruct (Hok o Ho) as (_ & _ & H); now destruct (H l Hl)).
  assert (D : forall o l, In o data -> (l < nl)%nat -> 0 < dmover_density p o l)
    by (intros o l Ho Hl; apply (dmover_density_pos nl nk p o l); auto).
  assert (Good' : forall pk, (forall o l, In o data -> (l < nl)%nat -> 0 < pk (key o) l) ->
     forall o, In o data -> dmover_ok nl nk (dset_pk1 pk p') o).
  { intros pk Hpk o Ho. destruct (Hok o Ho) as (H1 & H2 & H3). split; [exact H1|]. split; [exact H2|].
    intros l Hl. destruct (H3 l Hl) as (_ & R). cbn [dset_pk1 dpk1 dS]. rewrite ES. split; [now apply Hpk|exact R]. }
  assert (D' : forall o l, In o data -> (l < nl)%nat -> 0 < dmover_density p' o l).
  { intros o l Ho Hl. exact (dmover_density_pos nl nk (dset_pk1 (dpk1 p) p') o l (Good' _ Ppk o Ho) Hl). }
  assert (Gain : 0 <= rsum (map (fun o => sumn nl (fun l => mover_posterior nl nk p o l
                   * (ln (dmover_density p' o l) - ln (dmover_density p o l)))) data)).
  { assert (Same : dA p' = dA p /\ dAb p' = dAb p -> forall o l, dmover_density p' o l = dmover_density p o l).
    { intros [Ea Eb] o l. unfold dmover_density, mean1, mean3, mean4, dvar1, dvar3, dvar4.
      now rewrite ES, ESb, Ea, Eb, S2, S3, S4. }
    assert (Zero : dA p' = dA p /\ dAb p' = dAb p -> rsum (map (fun o => sumn nl (fun l => mover_posterior nl nk p o l
                   * (ln (dmover_density p' o l) - ln (dmover_density p o l)))) data) = 0).
    { intros E. apply rsum_zero. intros o _.
      apply sumn_zero. intros l _. rewrite (Same E). ring. }
    destruct (up_a c) eqn:Ua; [|rewrite Zero by exact S5; lra].
    destruct S5 as [[S5|[Sf Sm]] _]; [rewrite Zero by exact S5; lra|].
    destruct (HA eq_refl) as [HV HF]. specialize (Sm _ _ HF). unfold A_loss in Sm.
    assert (Rz : forall B Bb, dridge (d_X_diag c) nl nk (periods_movers (endogeneity c) (state_dependence c)) B Bb = 0).
    { intros B Bb. unfold dridge. rewrite Rmax_left by (pose proof (no_ridge eq_refl); lra). ring. }
    rewrite !Rz in Sm.
    rewrite (rsum_map_ext _ (fun o => / (2 * sqrt v) *
       (sumn nl (fun l => mover_posterior nl nk p o l * mover_fit p (dA p) (dAb p) o l)
        - sumn nl (fun l => mover_posterior nl nk p o l * mover_fit p (dA p') (dAb p') o l)))).
    2:{ intros o Ho. rewrite <- sumn_minus, <- sumn_scal. apply sumn_ext. intros l Hl.
        rewrite (density_gain v p p' o l); auto. unfold Rdiv. ring. }
    rewrite rsum_map_scal. apply Rmult_le_pos.
    { apply Rlt_le, Rinv_0_lt_compat. pose proof (sqrt_lt_R0 v Hv). lra. }
    unfold total in Sm.
    rewrite (rsum_map_ext _ (fun o =>
       sumn nl (fun l => mover_posterior nl nk p o l * mover_fit p (dA p) (dAb p) o l)
        + - 1 * sumn nl (fun l => mover_posterior nl nk p o l * mover_fit p (dA p') (dAb p') o l)))
      by (intros; ring).
    rewrite rsum_map_plus, rsum_map_scal. lra. }
  destruct (em_gain key (dmover_density p) (dmover_density p') (nk * nk) nl (dpk1 p) (dpk1 p') data) as [P' L].
  - exact nl_pos.
  - intros o Ho. destruct (Kb o Ho). unfold key. nia.
  - exact D.
  - exact D'.
  - exact Ppk.
  - exact Hone.
  - destruct (up_pk1 c); [right|left; intros; now rewrite S1].
    intros o l Ho Hl. destruct (Kb o Ho) as [K1 K2]. unfold key at 1. rewrite S1 by auto.
    assert (K : forall l, pair_count nl nk c data p (dg1 o) (dg4 o) l
      = kcount 1 key (fun o l => dpk1 p (key o) l * dmover_density p o l
          / mixture nl (dpk1 p (key o)) (dmover_density p o)) data (key o) l).
    { intros l'. rewrite <- (pair_count_key nl nk c data p (dg1 o) (dg4 o) l')
        by (try exact K1; intros o' Ho'; now destruct (Kb o' Ho')).
      rewrite flat_prior. reflexivity. }
    rewrite K. f_equal. apply sumn_ext. intros; apply K.
  - exact Gain.
  - split.
    + split; [|split].
      * intros o Ho. pose proof (Good' (dpk1 p') (fun o l Ho => proj1 (P' o Ho) l) o Ho) as G. now destruct p'.
      * intros o Ho. now apply P'.
      * intros Ua. destruct (HA Ua) as [HV HF]. split.
        -- intros o l Ho Hl. destruct (HV o l Ho Hl) as (V1 & V2 & V3 & V4).
           unfold dvar1, dvar3, dvar4 in *. rewrite ES, ESb, S2, S3, S4. auto.
        -- rewrite Ua in S5. destruct S5 as [[[Ea Eb]|[Sf _]] _]; [now rewrite Ea, Eb|exact Sf].
    + unfold dmovers_loglik. destruct (Nat.eq_dec (length data) 0) as [E0|E0].
      * destruct data; [|discriminate]. cbn. lra.
      * apply Rmult_le_compat_r; [|exact L].
        apply Rlt_le, Rinv_0_lt_compat, lt_0_INR. lia.
Qed.

Lemma reported_flat iter p : reported nl nk c data iter p = dmovers_loglik nl nk p data.
Proof. unfold reported. rewrite flat_prior. destruct (_ && _)%bool; ring. Qed.

Lemma path_ascent v n iter prev p ls p' : 0 < v -> good v p ->
  mover_path solver nl nk c data n iter prev p ls p' ->
  Sorted Rle (ls ++ [dmovers_loglik nl nk p' data]) /\
  hd 0 (ls ++ [dmovers_loglik nl nk p' data]) = dmovers_loglik nl nk p data /\ good v p'.
Proof.
  intros Hv Hg Hp. induction Hp as [iter prev p|n iter l0 p Hl|n iter prev p p1 ls p2 Hs Hp IH].
  - cbn. split; [repeat constructor|]. now split.
  - rewrite reported_flat. cbn. split; [|now split]. constructor; [repeat constructor|]. constructor. lra.
  - destruct (step_ascent v iter p p1 Hv Hg Hs) as [Hg1 Hle].
    destruct (IH Hg1) as (I1 & I2 & I3). rewrite reported_flat. cbn [app hd].
    split; [|now split]. constructor; [exact I1|].
    destruct ls as [|x ls]; cbn in I2 |- *; constructor; subst; rewrite ?I2; exact Hle.
Qed.
End Movers.
