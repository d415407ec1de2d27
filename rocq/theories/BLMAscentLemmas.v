(* One EM step increases the likelihood: the general argument, and the updates
   of means and variances for one cell. *)
From Verif Require Import Base BaseLemmas UtilModel UtilSpec UtilNumLemmas
  BLMModel BLMEMModel BLMSpec BLMSortLemmas BLMLikLemmas BLMEMLemmas.
Local Open Scope R_scope.

Section Step.
Context {A : Type} (key : A -> nat) (f f' : A -> nat -> R) (nl : nat) (pi pi' : mat)
  (items : list A).
Let m (a : A) : R := mixture nl (pi (key a)) (f a).
Let q (a : A) (l : nat) : R := pi (key a) l * f a l / m a.
Hypothesis nl_pos : (0 < nl)%nat.
Hypothesis f_pos : forall a l, In a items -> (l < nl)%nat -> 0 < f a l.
Hypothesis f'_pos : forall a l, In a items -> (l < nl)%nat -> 0 < f' a l.
Hypothesis pi_pos : forall a l, In a items -> (l < nl)%nat -> 0 < pi (key a) l.
Hypothesis pi'_pos : forall a l, In a items -> (l < nl)%nat -> 0 < pi' (key a) l.

Lemma row_gain a :
  In a items ->
  ln (m a) + sumn nl (fun l => q a l * (ln (pi' (key a) l) - ln (pi (key a) l)))
           + sumn nl (fun l => q a l * (ln (f' a l) - ln (f a l)))
  <= ln (mixture nl (pi' (key a)) (f' a)).
Proof.
  intros Ha.
  pose proof (m_pos key f nl pi items nl_pos f_pos pi_pos a Ha) as Hm. change (0 < m a) in Hm.
  set (x := fun l => (pi' (key a) l * f' a l) / (pi (key a) l * f a l)).
  assert (Hx : forall l, (l < nl)%nat -> 0 < x l).
  { intros l Hl. apply Rdiv_lt_0_compat; apply Rmult_lt_0_compat; auto. }
  assert (E : sumn nl (fun l => q a l * x l) = mixture nl (pi' (key a)) (f' a) / m a).
  { unfold mixture, Rdiv at 1. rewrite <- sumn_scal_r. apply sumn_ext. intros l Hl.
    unfold q, x. pose proof (pi_pos a l Ha Hl). pose proof (f_pos a l Ha Hl). field. repeat split; lra. }
  assert (Hm' : 0 < mixture nl (pi' (key a)) (f' a)).
  { apply sumn_pos; [exact nl_pos|]. intros l Hl. apply Rmult_lt_0_compat; auto. }
  assert (Hd : 0 < mixture nl (pi' (key a)) (f' a) / m a) by (now apply Rdiv_lt_0_compat).
  pose proof (jensen_ln nl (q a) x) as J. rewrite E in J.
  specialize (J (fun l Hl => Rlt_le _ _ (q_pos key f nl pi items nl_pos f_pos pi_pos a l Ha Hl))
                (q_one key f nl pi items nl_pos f_pos pi_pos a Ha) Hx Hd).
  unfold Rdiv in J at 1. rewrite ln_mult, ln_Rinv in J by (auto; now apply Rinv_0_lt_compat).
  rewrite Rplus_assoc, <- sumn_plus.
  rewrite (sumn_ext _ _ (fun l => q a l * ln (x l))); [lra|].
  intros l Hl. unfold x, Rdiv.
  rewrite ln_mult, ln_Rinv, !ln_mult; auto; try (apply Rmult_lt_0_compat; auto).
  - ring.
  - apply Rinv_0_lt_compat, Rmult_lt_0_compat; auto.
Qed.

Lemma step_gain :
  0 <= rsum (map (fun a => sumn nl (fun l => q a l * (ln (f' a l) - ln (f a l)))) items) ->
  rsum (map (fun a => ln (m a)) items)
  + rsum (map (fun a => sumn nl (fun l => q a l * (ln (pi' (key a) l) - ln (pi (key a) l)))) items)
  <= rsum (map (fun a => ln (mixture nl (pi' (key a)) (f' a))) items).
Proof.
  intros Hf.
  assert (H : rsum (map (fun a => ln (m a)
      + sumn nl (fun l => q a l * (ln (pi' (key a) l) - ln (pi (key a) l)))
      + sumn nl (fun l => q a l * (ln (f' a l) - ln (f a l)))) items)
      <= rsum (map (fun a => ln (mixture nl (pi' (key a)) (f' a))) items))
    by (apply rsum_le; intros a Ha; now apply row_gain).
  rewrite !rsum_map_plus in H. lra.
Qed.
End Step.

(* The proportions proportional to the sums of r: they maximise the sum of
   r ln(pi). *)
Section Prior.
Context {A : Type} (key : A -> nat) (r : A -> nat -> R) (D : R) (n nl : nat) (pi pi' : mat)
  (items : list A).
Hypothesis key_lt : forall a, In a items -> (key a < n)%nat.
Hypothesis D_pos : 0 < D.
Hypothesis r_sum : forall a, In a items -> sumn nl (r a) = D.
Hypothesis pi_pos : forall a l, In a items -> (l < nl)%nat -> 0 < pi (key a) l.
Hypothesis pi_one : forall a, In a items -> sumn nl (pi (key a)) = 1.
Hypothesis pi'_pos : forall a l, In a items -> (l < nl)%nat -> 0 < pi' (key a) l.
Let N (k : nat) : R := rsum (map (fun a => if (key a =? k)%nat then 1 else 0) items).
Hypothesis update : forall a l, In a items -> (l < nl)%nat ->
  pi' (key a) l * (N (key a) * D)
  = rsum (map (fun b => if (key b =? key a)%nat then r b l else 0) items).

Lemma NN_pos a : In a items -> 0 < N (key a).
Proof.
  intros Ha. apply (weight_pos key (fun _ => 1)); [intros; lra|]. exists a; auto.
Qed.
Lemma pi'_sum a : In a items -> sumn nl (pi' (key a)) = 1.
Proof.
  intros Ha. pose proof (NN_pos a Ha) as HN.
  assert (HND : N (key a) * D <> 0) by nra.
  apply Rmult_eq_reg_r with (N (key a) * D); [|exact HND]. rewrite <- sumn_scal_r.
  rewrite (sumn_ext _ _ (fun l => rsum (map (fun b => if (key b =? key a)%nat then r b l else 0) items)))
    by (intros; now apply update).
  rewrite <- rsum_sumn_swap, Rmult_1_l. unfold N. rewrite <- rsum_map_scal_r.
  apply rsum_map_ext. intros b Hb.
  destruct (key b =? key a)%nat; [rewrite r_sum by exact Hb; lra|].
  rewrite sumn_zero by reflexivity. lra.
Qed.

Lemma prior_gain :
  0 <= rsum (map (fun a => sumn nl (fun l => r a l * (ln (pi' (key a) l) - ln (pi (key a) l)))) items).
Proof.
  rewrite (rsum_by_key key (fun k a => sumn nl (fun l => r a l * (ln (pi' k l) - ln (pi k l)))) n)
    by exact key_lt.
  apply sumn_nonneg. intros k _.
  destruct (existsb (fun a => (key a =? k)%nat) items) eqn:Ex.
  - apply existsb_exists in Ex as (a & Ha & Ek). apply Nat.eqb_eq in Ek. subst k.
    set (L := fun l => ln (pi' (key a) l) - ln (pi (key a) l)).
    assert (E : rsum (map (fun b => if (key b =? key a)%nat then sumn nl (fun l => r b l * L l) else 0) items)
                = N (key a) * D * sumn nl (fun l => pi' (key a) l * ln (pi' (key a) l / pi (key a) l))).
    { rewrite <- sumn_scal.
      transitivity (sumn nl (fun l => rsum (map (fun b => if (key b =? key a)%nat then r b l * L l else 0) items))).
      - rewrite <- rsum_sumn_swap. apply rsum_map_ext. intros b _.
        destruct (key b =? key a)%nat; [reflexivity|]. symmetry. now apply sumn_zero.
      - apply sumn_ext. intros l Hl.
        replace (ln (pi' (key a) l / pi (key a) l)) with (L l).
        2:{ unfold L, Rdiv. rewrite ln_mult, ln_Rinv; auto. apply Rinv_0_lt_compat; auto. }
        transitivity (pi' (key a) l * (N (key a) * D) * L l); [|ring].
        rewrite (update a l Ha Hl), <- rsum_map_scal_r. apply rsum_map_ext. intros b _.
        destruct (key b =? key a)%nat; ring. }
    change (0 <= rsum (map (fun b => if (key b =? key a)%nat then sumn nl (fun l => r b l * L l) else 0) items)).
    rewrite E. pose proof (NN_pos a Ha).
    apply Rmult_le_pos; [apply Rmult_le_pos; lra|].
    apply gibbs; [intros; now apply pi'_pos|intros; now apply pi_pos|].
    rewrite pi_one, pi'_sum by exact Ha. lra.
  - rewrite rsum_zero; [lra|]. intros a Ha.
    destruct (key a =? k)%nat eqn:E; [|reflexivity].
    assert (X : existsb (fun a => (key a =? k)%nat) items = true)
      by (apply existsb_exists; exists a; auto). congruence.
Qed.
End Prior.

(* The variance of one cell: n = sum of weights, m = weighted squared residuals.
   The solution x of the program over v >= lb is also the best variance. *)
Lemma var_best n m lb x :
  0 <= n -> 0 <= m -> (n = 0 -> m = 0) -> 0 < lb -> lb <= x ->
  (forall v, lb <= v -> n * x ^ 2 / 2 - m * x <= n * v ^ 2 / 2 - m * v) ->
  forall v, lb <= v -> n * ln x + m / x <= n * ln v + m / v.
Proof.
  intros Hn Hm H0 Hlb Hx Hopt v Hv.
  destruct (Req_dec n 0) as [En|En].
  { rewrite En, (H0 En). unfold Rdiv. lra. }
  assert (Hn' : 0 < n) by lra. set (r := m / n).
  assert (Em : m = n * r) by (unfold r; field; lra).
  assert (Hr : 0 <= r) by (apply Rmult_le_pos; [exact Hm|left; now apply Rinv_0_lt_compat]).
  assert (Key : forall u, lb <= u -> ln x + r / x <= ln u + r / u).
  { intros u Hu.
    destruct (Rle_dec lb r) as [Hlr|Hlr].
    - specialize (Hopt r Hlr). rewrite Em in Hopt.
      assert (Sq : n * (x - r) ^ 2 <= 0) by nra.
      assert (Ex : x = r). { assert (Z : (x - r) ^ 2 <= 0) by nra. nra. }
      rewrite Ex. assert (Hrp : 0 < r) by lra.
      assert (Hd : 0 < r / u) by (apply Rdiv_lt_0_compat; lra).
      pose proof (ln_le_sub1 _ Hd) as Q. unfold Rdiv in Q at 1.
      rewrite ln_mult, ln_Rinv in Q by (try apply Rinv_0_lt_compat; lra).
      replace (r / r) with 1 by (field; lra). lra.
    - specialize (Hopt lb (Rle_refl lb)). rewrite Em in Hopt.
      assert (Sq : n * ((x - r) ^ 2 - (lb - r) ^ 2) <= 0) by nra.
      assert (Ex : x = lb).
      { assert (Z : (x - r) ^ 2 <= (lb - r) ^ 2) by nra. nra. }
      rewrite Ex.
      (* ln u - ln lb >= 1 - lb/u, and r (1/lb - 1/u) <= 1 - lb/u since r <= lb *)
      assert (Hd : 0 < lb / u) by (apply Rdiv_lt_0_compat; lra).
      pose proof (ln_le_sub1 _ Hd) as Q. unfold Rdiv in Q at 1.
      rewrite ln_mult, ln_Rinv in Q by (try apply Rinv_0_lt_compat; lra).
      assert (I : r / lb - r / u <= 1 - lb / u).
      { replace (r / lb - r / u) with (r / lb * (1 - lb / u)) by (field; lra).
        assert (0 <= 1 - lb / u).
        { assert (lb / u <= 1); [|lra]. apply Rmult_le_reg_r with u; [lra|].
          unfold Rdiv. rewrite Rmult_assoc, Rinv_l by lra. lra. }
        assert (r / lb <= 1).
        { apply Rmult_le_reg_r with lb; [lra|]. unfold Rdiv. rewrite Rmult_assoc, Rinv_l by lra. lra. }
        assert (0 <= r / lb) by (apply Rmult_le_pos; [exact Hr|left; now apply Rinv_0_lt_compat]).
        nra. }
      lra. }
  specialize (Key v Hv). rewrite Em. unfold Rdiv in *. nra.
Qed.
