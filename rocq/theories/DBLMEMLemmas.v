(* The iterations of the dynamic BLM estimator for movers follow the specification. *)
From Verif Require Import Base BaseLemmas UtilModel UtilSpec ConsModel ConsSpec ConsLemmas
  ConsBuild2Lemmas ConsPropLemmas BLMModel BLMEMModel BLMSpec BLMSortLemmas BLMEMLemmas BLMStayLemmas
  BLMFitModel BLMFitSpec BLMFitLemmas DBLMModel DBLMSpec DBLMEMSpec DBLMSortLemmas DBLMLikLemmas
  DBLMRegLemmas DBLMStepLemmas DBLMStep2Lemmas DBLMStep3Lemmas.
From Coq Require Import Permutation Sorted.
Local Open Scope res_scope.
Local Open Scope R_scope.

Definition table (nl : nat) (q : dobs -> nat -> R) (data : list dobs) : list (list R) :=
  map (fun o => map (q o) (range nl)) data.
Lemma weighted_total nl fit q data : weighted nl fit data (table nl q data) = total nl q fit data.
Proof.
  unfold weighted, total, table. apply f_equal.
  induction data as [|o data IH]; cbn [map map2]; [reflexivity|]. rewrite IH. f_equal.
  apply sumn_ext. intros l Hl. f_equal.
  rewrite (nth_map_in _ _ _ 0%nat 0) by (rewrite length_range; exact Hl).
  now rewrite nth_range.
Qed.
Lemma length_table nl q data : length (table nl q data) = length data.
Proof. unfold table. apply map_length. Qed.
Lemma table_in nl q data row l :
  In row (table nl q data) -> (l < nl)%nat -> exists o, In o data /\ nth l row 0 = q o l.
Proof.
  intros H Hl. unfold table in H. apply in_map_iff in H as (o & <- & Ho). exists o. split; [exact Ho|].
  rewrite (nth_map_in _ _ _ 0%nat 0) by (rewrite length_range; exact Hl). now rewrite nth_range.
Qed.

Lemma rsum_filter {A} (b : A -> bool) f l :
  rsum (map f (filter b l)) = rsum (map (fun o => if b o then f o else 0) l).
Proof.
  induction l as [|x l IH]; cbn [filter map rsum]; [reflexivity|].
  destruct (b x); cbn [map rsum]; rewrite IH; lra.
Qed.

(* ---- the proportions ---- *)
Definition kcount (d : R) (key : dobs -> nat) (q : dobs -> nat -> R) (data : list dobs) (k l : nat) : R :=
  rsum (map (fun o => if (key o =? k)%nat then q o l + d - 1 else 0) data).
Lemma rsum_pos_one {A} (f : A -> R) l x : (forall y, In y l -> 0 <= f y) -> In x l -> 0 < f x ->
  0 < rsum (map f l).
Proof.
  induction l as [|y l IH]; intros H Hx Hp; [destruct Hx|]. cbn [map rsum].
  assert (0 <= rsum (map f l)).
  { apply rsum_nonneg. intros v Hv. apply in_map_iff in Hv as (z & <- & Hz). apply H. now right. }
  destruct Hx as [->|Hx]; [lra|].
  pose proof (H y (or_introl eq_refl)).
  assert (0 < rsum (map f l)) by (apply IH; auto; intros; apply H; now right). lra.
Qed.
Lemma sumn_ge_term n f j : (j < n)%nat -> (forall i, (i < n)%nat -> 0 <= f i) -> f j <= sumn n f.
Proof.
  intros Hj Hf. pose proof (sumn_single n j (fun i => if (i =? j)%nat then f i else 0) Hj) as E.
  cbv beta in E. rewrite Nat.eqb_refl in E. rewrite <- E.
  - apply sumn_le. intros i Hi. destruct (i =? j)%nat; [lra|auto].
  - intros i _ Hne. apply Nat.eqb_neq in Hne. now rewrite Hne.
Qed.
Lemma kcount_pos nl d key q data k l :
  1 <= d -> (forall o l, In o data -> (l < nl)%nat -> 0 < q o l) -> (l < nl)%nat ->
  (exists o, In o data /\ key o = k) -> 0 < kcount d key q data k l.
Proof.
  intros Hd Hq Hl (o & Ho & E). unfold kcount. apply (rsum_pos_one _ _ o); [|exact Ho|].
  - intros y Hy. destruct (key y =? k)%nat; [|lra]. pose proof (Hq y l Hy Hl). lra.
  - rewrite E, Nat.eqb_refl. pose proof (Hq o l Ho Hl). lra.
Qed.
Lemma dpk_update_ok n nl d key q data :
  (0 < nl)%nat -> 1 <= d -> (forall o l, In o data -> (l < nl)%nat -> 0 < q o l) ->
  (forall k, (k < n)%nat -> exists o, In o data /\ key o = k) ->
  exists pk, dpk_update n nl d (map key data) (table nl q data) = Ok pk /\
    forall k l, (k < n)%nat -> (l < nl)%nat ->
      pk k l = kcount d key q data k l / sumn nl (kcount d key q data k) /\ 0 < pk k l.
Proof.
  intros Hnl Hd Hq Hobs. unfold dpk_update. cbv zeta.
  set (cnt := fun k l => rsum _).
  assert (C : forall k l, (l < nl)%nat -> cnt k l = kcount d key q data k l).
  { intros k l Hl. unfold cnt, kcount, table. apply f_equal. clear Hobs Hq cnt.
    induction data as [|o D IH]; cbn [map map2]; [reflexivity|]. rewrite IH. f_equal.
    destruct (key o =? k)%nat; [|reflexivity].
    rewrite (nth_map_in _ _ _ 0%nat 0) by (rewrite length_range; exact Hl). now rewrite nth_range. }
  assert (P : forall k, (k < n)%nat -> 0 < sumn nl (cnt k)).
  { intros k Hk. apply sumn_pos; [exact Hnl|]. intros l Hl. rewrite C by exact Hl.
    apply (kcount_pos nl); auto. }
  rewrite any_nan_false.
  2:{ intros k l Hk Hl. rewrite norm_rows_some; [discriminate|]. pose proof (P k Hk). lra. }
  eexists. split; [reflexivity|]. intros k l Hk Hl.
  pose proof (P k Hk) as Pk. pose proof (kcount_pos nl d key q data k l Hd Hq Hl (Hobs k Hk)) as Pc.
  assert (V : from_nan (norm_rows nl cnt) k l = kcount d key q data k l / sumn nl (kcount d key q data k)).
  { unfold from_nan. rewrite norm_rows_some by lra. rewrite (sumn_ext nl (cnt k) _ (fun l => C k l)), C by exact Hl.
    unfold Rdiv. ring. }
  split; [exact V|]. rewrite V.
  assert (Ps : 0 < sumn nl (kcount d key q data k))
    by (rewrite <- (sumn_ext nl (cnt k) _ (fun l => C k l)); exact Pk).
  now apply Rdiv_lt_0_compat.
Qed.
(* a row of movers nobody belongs to *)
Lemma dpk_update_err n nl d key q data k :
  (0 < nl)%nat -> (k < n)%nat -> (forall o, In o data -> key o <> k) ->
  dpk_update n nl d (map key data) (table nl q data) = Err ValueError.
Proof.
  intros Hnl Hk Hno. unfold dpk_update. cbv zeta.
  rewrite (any_nan_true _ _ _ k 0%nat); [reflexivity|exact Hk|exact Hnl|].
  apply norm_rows_none. apply sumn_zero. intros l Hl. unfold table.
  induction data as [|o D IH]; cbn [map map2 rsum]; [reflexivity|].
  rewrite IH by (intros; apply Hno; now right).
  destruct (key o =? k)%nat eqn:E; [|lra]. apply Nat.eqb_eq in E.
  exfalso. exact (Hno o (or_introl eq_refl) E).
Qed.

Lemma plain_neg r : plain r <-> neg_square r.
Proof.
  unfold plain, neg_square. split; [intros [->| ->]; ring|].
  intros H. assert (Z : r * (r + 1) = 0) by (ring_simplify; lra).
  apply Rmult_integral in Z as [Z|Z]; [now left|right; lra].
Qed.

(* ---- what updating A and S leaves alone ---- *)
Section Movers.
Variable argsort : list R -> list nat.
Hypothesis argsort_ok : forall l, is_argsort l (argsort l).
Variable solver : nat -> mat -> list R -> problem -> qpres.
Hypothesis exact : dexact solver.
Variables (nl nk : nat) (c : dsettings) (data : list dobs).
Hypothesis nl_pos : (0 < nl)%nat.
Let e := endogeneity c.
Let s := state_dependence c.
Let pm := periods_movers e s.
Hypothesis cons_valid : forall o, In o (dcons_a c ++ dcons_a_all c ++ dcons_s c ++ dcons_s_all c) ->
  valid (length pm) nl nk o.
Hypothesis lb_pos : 0 < ds_lower_bound c.
Hypothesis prior : 1 <= dd_prior c.
Hypothesis pairs : up_pk1 c = true -> dall_pairs nk data.
Let pp := argsort.

Lemma update_AS_frame cons qi p :
  let p' := update_AS argsort solver nl nk c cons data qi p in
  dpk1 p' = dpk1 p /\ dpk0 p' = dpk0 p /\ dNNm p' = dNNm p /\ dNNs p' = dNNs p /\
  R12 p' = R12 p /\ R43 p' = R43 p /\ R32m p' = R32m p /\ R32s p' = R32s p /\
  dA p' T2s = dA p T2s /\ dA p' T3s = dA p T3s /\ dS p' T2s = dS p T2s /\ dS p' T3s = dS p T3s /\
  (up_a c = false -> dA p' = dA p /\ dAb p' = dAb p) /\
  (up_s c = false -> dS p' = dS p /\ dSb p' = dSb p) /\
  (dS p' = dS p /\ dSb p' = dSb p \/
   exists x, (dS p', dSb p') = store nl nk sqrt pm x (dS p, dSb p)).
Proof.
  clear. intros p'. unfold p', update_AS. fold e s pm.
  set (sa := dsolve _ _ _ _ _ _ _ (fst cons)).
  set (pA := if up_a c then match sa with QSol x => _ | _ => p end else p).
  set (ss := dsolve _ _ _ _ _ _ _ (snd cons)).
  assert (PA : exists t, pA = dset_A t p /\ fst t T2s = dA p T2s /\ fst t T3s = dA p T3s /\
                 (up_a c = false -> t = (dA p, dAb p))).
  { unfold pA. destruct (up_a c); [|exists (dA p, dAb p); now destruct p].
    destruct sa as [x| |]; [|exists (dA p, dAb p); split; [now destruct p|]; repeat split; discriminate..].
    exists (store nl nk (fun r => r) pm x (dA p, dAb p)).
    destruct (store_movers nl nk e s (fun r => r) x (dA p) (dAb p)) as (_ & _ & _ & _ & S5 & S6).
    split; [reflexivity|]. split; [exact S5|]. split; [exact S6|]. discriminate. }
  destruct PA as (t & -> & T1 & T2 & T3).
  assert (F : forall q, q = dset_A t p -> 
    dpk1 q = dpk1 p /\ dpk0 q = dpk0 p /\ dNNm q = dNNm p /\ dNNs q = dNNs p /\
    R12 q = R12 p /\ R43 q = R43 p /\ R32m q = R32m p /\ R32s q = R32s p /\
    dA q T2s = dA p T2s /\ dA q T3s = dA p T3s /\ dS q T2s = dS p T2s /\ dS q T3s = dS p T3s /\
    (up_a c = false -> dA q = dA p /\ dAb q = dAb p) /\ (up_s c = false -> dS q = dS p /\ dSb q = dSb p) /\
    (dS q = dS p /\ dSb q = dSb p \/ exists x, (dS q, dSb q) = store nl nk sqrt pm x (dS p, dSb p))).
  { intros q ->. repeat (split; [solve [reflexivity|exact T1|exact T2]|]). split.
    - intros Q. rewrite (T3 Q). now split.
    - split; [now split|]. left. now split. }
  destruct (up_s c) eqn:Es; [|now apply F].
  destruct ss as [x| |]; [|now apply F..].
  destruct (store_movers nl nk e s sqrt x (dS p) (dSb p)) as (_ & _ & _ & _ & S5 & S6). fold pm in S5, S6.
  cbn [dset_S dpk1 dpk0 dNNm dNNs R12 R43 R32m R32s dA dAb dS dSb dset_A].
  repeat (split; [solve [reflexivity|exact T1|exact T2|exact S5|exact S6]|]). split.
  - intros Q. rewrite (T3 Q). now split.
  - split; [discriminate|]. right. exists x. symmetry. apply surjective_pairing.
Qed.

(* ---- the invariant of the iterations ---- *)
Definition minv (p : dpar) : Prop :=
  (forall o, In o data -> dmover_ok nl nk p o) /\ b_absent nk e s (dAb p) /\ b_absent nk e s (dSb p).

Lemma posterior_pos p o l : minv p -> In o data -> (l < nl)%nat -> 0 < mover_posterior nl nk p o l.
Proof.
  intros (H & _) Ho Hl. pose proof (H o Ho) as H0. unfold mover_posterior.
  assert (P : forall l, (l < nl)%nat -> 0 < dpk1 p (dg1 o + nk * dg4 o)%nat l * dmover_density p o l).
  { intros l' Hl'. apply Rmult_lt_0_compat; [|eapply dmover_density_pos; eauto].
    destruct H0 as (_ & _ & Q). now destruct (Q l' Hl'). }
  apply Rdiv_lt_0_compat; [now apply P|]. unfold mixture_m, mixture.
  apply sumn_pos; [exact nl_pos|]. exact P.
Qed.

(* the lower bound as a constraint *)
Lemma bounded_allowed lb cs A Ab :
  dallowed nl nk pm (CBoundedBelow lb (length pm) :: cs) A Ab <->
  (forall t l k, In t pm -> (l < nl)%nat -> (k < nk)%nat -> lb <= period_value A Ab t l k) /\
  dallowed nl nk pm cs A Ab.
Proof.
  clear. destruct (BoundedBelow_spec lb (length pm) nl nk) as (d & Ed & _ & Hd).
  split.
  - intros (x & Hx & D). split.
    + intros t l k Ht Hl Hk. apply In_nth_error in Ht as [i Hi].
      rewrite <- (Hx i t l k Hi Hl Hk).
      assert (Hs : sat d x) by (apply (D _ d (or_introl eq_refl)); exact Ed).
      rewrite Hd in Hs. apply Hs; auto. apply nth_error_Some. congruence.
    + exists x. split; [exact Hx|]. intros o d' Ho. apply D. now right.
  - intros [B (x & Hx & D)]. exists x. split; [exact Hx|].
    intros o d' [<-|Ho] Ed'; [|now apply (D o d' Ho)].
    assert (d' = d) as -> by (assert (X : BoundedBelow lb (length pm) nl nk = Ok d') by exact Ed'; congruence).
    apply Hd. intros t l k Ht Hl Hk.
    destruct (nth_error pm t) as [u|] eqn:Eu; [|apply nth_error_None in Eu; lia].
    rewrite (Hx t u l k Eu Hl Hk). apply B; auto. eapply nth_error_In; eauto.
Qed.

Lemma rho_least (X Y SS : nat -> dobs -> R) q :
  (forall o l, In o data -> (l < nl)%nat -> 0 < SS l o) ->
  (forall o l, In o data -> (l < nl)%nat -> 0 < q o l) ->
  (exists o l, In o data /\ (l < nl)%nat /\ X l o <> 0) ->
  least (fun r => total nl q (fun o l => (Y l o - r * X l o) ^ 2 / SS l o) data)
        (wls nl data (table nl q data) X Y SS).
Proof.
  intros HS Hq (o0 & l0 & Ho & Hl & Hne) r'.
  destruct (wls_minimiser nl data (table nl q data) X Y SS) with (r := r') as [H _].
  - apply length_table.
  - exact HS.
  - intros row l Hr Hl'. destruct (table_in nl q data row l Hr Hl') as (o & Ho' & ->).
    left. now apply Hq.
  - rewrite weighted_total. unfold total.
    assert (0 < rsum (map (fun o => sumn nl (fun l => q o l * (X l o * X l o / SS l o))) data)); [|lra].
    assert (N : forall o l, In o data -> (l < nl)%nat -> 0 <= q o l * (X l o * X l o / SS l o)).
    { intros o l H1 H2. apply Rmult_le_pos; [left; now apply Hq|]. apply Rmult_le_pos; [nra|].
      apply Rlt_le, Rinv_0_lt_compat. now apply HS. }
    apply (rsum_pos_one _ _ o0); [|exact Ho|].
    + intros y Hy. apply sumn_nonneg. intros l Hl'. now apply N.
    + apply Rlt_le_trans with (q o0 l0 * (X l0 o0 * X l0 o0 / SS l0 o0)).
      * apply Rmult_lt_0_compat; [now apply Hq|]. apply Rdiv_lt_0_compat; [|now apply HS].
        destruct (Rdichotomy _ _ Hne); nra.
      * apply (sumn_ge_term nl (fun l => q o0 l * (X l o0 * X l o0 / SS l o0)) l0 Hl).
        intros l Hl'. now apply N.
  - unfold reg_loss in H. rewrite !weighted_total in H. exact H.
Qed.

Lemma pair_key (a b k1 k2 : nat) : (a < nk)%nat -> (k1 < nk)%nat ->
  (a + nk * b =? k1 + nk * k2)%nat = ((a =? k1) && (b =? k2))%nat%bool.
Proof.
  clear. intros Ha Hk.
  destruct (Nat.eq_dec a k1) as [->|N1].
  - rewrite Nat.eqb_refl. cbn [andb]. destruct (Nat.eq_dec b k2) as [->|N2].
    + now rewrite !Nat.eqb_refl.
    + rewrite (proj2 (Nat.eqb_neq b k2) N2). apply Nat.eqb_neq. nia.
  - rewrite (proj2 (Nat.eqb_neq a k1) N1). cbn [andb]. apply Nat.eqb_neq. intros C.
    assert (b = k2) by nia. subst. lia.
Qed.
Lemma pair_count_key p k1 k2 l : (forall o, In o data -> (dg1 o < nk)%nat) -> (k1 < nk)%nat ->
  kcount (dd_prior c) (fun o => (dg1 o + nk * dg4 o)%nat) (mover_posterior nl nk p) data (k1 + nk * k2) l
  = pair_count nl nk c data p k1 k2 l.
Proof.
  intros Hd Hk. unfold kcount, pair_count. rewrite rsum_filter. apply f_equal. apply map_ext_in.
  intros o Ho. now rewrite pair_key by auto.
Qed.

Lemma pk_step p : minv p ->
  exists pk, (if up_pk1 c
              then pk <- dpk_update (nk * nk) nl (dd_prior c)
                     (map (fun o => (dg1 o + nk * dg4 o)%nat) data)
                     (table nl (mover_posterior nl nk p) data) ;; Ok (dset_pk1 pk p)
              else Ok p) = Ok (dset_pk1 pk p) /\
    (if up_pk1 c
     then forall k1 k2 l, (k1 < nk)%nat -> (k2 < nk)%nat -> (l < nl)%nat ->
        pk (k1 + nk * k2)%nat l = pair_count nl nk c data p k1 k2 l / sumn nl (pair_count nl nk c data p k1 k2)
     else pk = dpk1 p) /\
    minv (dset_pk1 pk p).
Proof.
  intros Hm. pose proof Hm as (H & HA & HS).
  destruct (up_pk1 c) eqn:Eu.
  - destruct (dpk_update_ok (nk * nk) nl (dd_prior c) (fun o => (dg1 o + nk * dg4 o)%nat)
                (mover_posterior nl nk p) data nl_pos prior) as (pk & Epk & Hpk).
    + intros o l Ho Hl. now apply posterior_pos.
    + intros k Hk. destruct (pair_of_index nk k Hk) as (k1 & k2 & H1 & H2 & ->).
      destruct (pairs eq_refl k1 k2 H1 H2) as (o & Ho & <- & <-). now exists o.
    + exists pk. rewrite Epk. cbn [bind]. split; [reflexivity|]. split.
      * intros k1 k2 l H1 H2 Hl. destruct (Hpk (k1 + nk * k2)%nat l) as [E _]; [nia|exact Hl|].
        assert (Hd : forall o, In o data -> (dg1 o < nk)%nat) by (intros o Ho; now destruct (H o Ho)).
        rewrite E, pair_count_key by auto. f_equal. apply sumn_ext. intros l' _. now apply pair_count_key.
      * split; [|now split]. intros o Ho. destruct (H o Ho) as (H1 & H2 & H3). split; [exact H1|]. split; [exact H2|].
        intros l Hl. destruct (H3 l Hl) as (_ & R). split; [|exact R].
        cbn [dset_pk1 dpk1]. apply Hpk; [nia|exact Hl].
  - exists (dpk1 p). split; [now destruct p|]. split; [reflexivity|]. now destruct p.
Qed.

Lemma A_best_optimal p pk B Bb :
  A_best nl nk c data (table nl (mover_posterior nl nk p) data) (dset_pk1 pk p) B Bb
  <-> A_optimal nl nk c data p B Bb.
Proof.
  assert (L : forall C Cb, A_objective nl nk c data (table nl (mover_posterior nl nk p) data)
                (dset_pk1 pk p) C Cb = A_loss nl nk c data p C Cb).
  { intros C Cb. unfold A_objective, A_loss. now rewrite weighted_total. }
  unfold A_best, A_optimal, A_feasible, cons_movers_A. split.
  - intros (H1 & H2 & H3). split; [now split|]. intros C Cb [H4 H5].
    rewrite <- !L. now apply H3.
  - intros ([H1 H2] & H3). split; [exact H1|]. split; [exact H2|]. intros C Cb H4 H5.
    rewrite !L. apply H3. now split.
Qed.

Lemma S_ok_feasible (t : tbl) : S_ok nl nk c t <-> V_feasible nl nk c (fst t) (snd t).
Proof.
  unfold S_ok, V_feasible, cons_movers_S. fold e s pm. rewrite bounded_allowed. tauto.
Qed.
Lemma V_loss_code p pk A Ab (t : tbl) :
  S_code nl nk c data (table nl (mover_posterior nl nk p) data) (dset_pk1 pk p) A Ab t
  = V_loss' nl nk c data p A Ab (fst t) (snd t).
Proof.
  unfold S_code, V_loss'. rewrite weighted_total. f_equal. unfold total. apply f_equal. apply map_ext.
  intros o. apply sumn_ext. intros l _. f_equal. rewrite !sumn_S, sumn_0.
  unfold mover_var_fit'. cbn [meps mpart mvar]. rewrite Rplus_0_l.
  change (mean1 (dset_A (A, Ab) (dset_pk1 pk p))) with (mean1 p).
  change (mean3 (dset_A (A, Ab) (dset_pk1 pk p))) with (mean3 p).
  change (mean4 (dset_A (A, Ab) (dset_pk1 pk p))) with (mean4 p).
  cbn [dset_A dset_pk1 dA dAb dS dSb R12 R43 R32m fst snd].
  assert (Q : forall u m m' v, m = m' -> sqdev u m v = sqdev u m' v) by (intros; subst; reflexivity).
  apply (f_equal2 Rplus); [apply (f_equal2 Rplus); [apply (f_equal2 Rplus)|]|]; apply Q; ring.
Qed.

Lemma S_positive p cons qi : minv p ->
  let p' := update_AS argsort solver nl nk c cons data qi p in
  V_feasible nl nk c (sq (dS p')) (sqb (dSb p')) \/ dS p' = dS p ->
  forall o, In o data -> dmover_ok nl nk p' o.
Proof.
  intros (H & _) p' HV o Ho. destruct (update_AS_frame cons qi p) as
    (F1 & _ & _ & _ & _ & _ & _ & _ & _ & _ & _ & _ & _ & _ & FS). fold p' in F1, FS.
  destruct (H o Ho) as (H1 & H2 & H3). split; [exact H1|]. split; [exact H2|]. intros l Hl.
  destruct (H3 l Hl) as (P0 & P1 & P2 & P3 & P4). rewrite F1. split; [exact P0|].
  assert (Same : dS p' = dS p -> 0 < dS p' T12 l (dg1 o) /\ 0 < dS p' T2ma l (dg1 o) /\
                 0 < dS p' T3ma l (dg4 o) /\ 0 < dS p' T43 l (dg4 o)).
  { intros ->. auto. }
  destruct HV as [HV|HV]; [|auto].
  destruct FS as [[FS _]|[x FS]]; [auto|].
  destruct HV as (B & _).
  assert (Q : forall a k, In (PA a) pm -> (k < nk)%nat -> 0 < dS p' a l k).
  { intros a k Ha Hk. pose proof (B (PA a) l k Ha Hl Hk) as Bk. cbn [period_value] in Bk. unfold sq in Bk.
    apply In_nth_error in Ha as [i Hi].
    destruct (store_movers nl nk e s sqrt x (dS p) (dSb p)) as (S1 & _). fold pm in S1.
    assert (0 <= dS p' a l k).
    { replace (dS p') with (fst (store nl nk sqrt pm x (dS p, dSb p))) by (now rewrite <- FS).
      rewrite (S1 i a l k Hi). apply sqrt_pos. }
    destruct (Req_dec (dS p' a l k) 0) as [Z|Z]; [|lra]. rewrite Z in Bk. exfalso. nra. }
  assert (I : In (PA T12) pm /\ In (PA T2ma) pm /\ In (PA T3ma) pm /\ In (PA T43) pm).
  { unfold pm, periods_movers. cbn. auto 10. }
  destruct I as (I1 & I2 & I3 & I4). repeat split; apply Q; auto.
Qed.

Lemma em_step_ok iter cons p :
  dgen_constraints nl nk c true = Ok cons -> minv p ->
  exists p', dem_update argsort solver nl nk c iter cons data
               (table nl (mover_posterior nl nk p) data) p = Ok (p', cons) /\
    mover_step solver nl nk c data iter p p' /\ minv p'.
Proof.
  intros Ec Hm. pose proof Hm as (Hok & HAb & HSb).
  destruct (pk_step p Hm) as (pk & E1 & Hpk & Hm1).
  unfold dem_update. rewrite E1. cbn [bind].
  set (p1 := dset_pk1 pk p) in *. set (qi := table nl (mover_posterior nl nk p) data).
  assert (Vp : forall o l, In o data -> (l < nl)%nat -> 0 < dvar1 p (sq (dS p)) o l /\
    0 < dvar2 (sq (dS p)) (sqb (dSb p)) o l /\
    0 < dvar3 p (sq (dS p)) (sqb (dSb p)) o l /\ 0 < dvar4 p (sq (dS p)) o l).
  { intros o l Ho Hl. now apply (dmover_vars_pos nl nk p o l (Hok o Ho)). }
  assert (Qp : forall o l, In o data -> (l < nl)%nat -> 0 < mover_posterior nl nk p o l)
    by (intros; now apply posterior_pos).
  destruct ((up_rho12 c || up_rho43 c || up_rho32m c) && (iter mod 2 =? 1)%nat)%bool eqn:Et.
  - (* rho *)
    eexists. split; [reflexivity|]. split.
    + assert (Eb : rho_turn c iter = true) by exact Et.
      split; rewrite ?Eb; cbn [andb negb].
      * destruct (up_pk1 c); exact Hpk.
      * cbn [update_rho dset_rho R12]. destruct (up_rho12 c); [|reflexivity].
        intros Hr. apply (rho_least (fun l o => dy2 o - dA p T2ma l (dg1 o))
          (fun l o => dy1 o - dA p T12 l (dg1 o)) (fun l o => dvar1 p (sq (dS p)) o l)).
        -- intros o l Ho Hl. now apply Vp.
        -- exact Qp.
        -- destruct Hr as (o & l & Ho & Hl & Hn). exists o, l. repeat split; auto. lra.
      * cbn [update_rho dset_rho R43]. destruct (up_rho43 c); [|reflexivity].
        intros Hr. apply (rho_least (fun l o => dy3 o - dA p T3ma l (dg4 o))
          (fun l o => dy4 o - dA p T43 l (dg4 o)) (fun l o => dvar4 p (sq (dS p)) o l)).
        -- intros o l Ho Hl. now apply Vp.
        -- exact Qp.
        -- destruct Hr as (o & l & Ho & Hl & Hn). exists o, l. repeat split; auto. lra.
      * cbn [update_rho dset_rho R32m]. destruct (up_rho32m c); [|reflexivity].
        intros Hr. apply (rho_least (fun l o => dy2 o - mean2 (dA p) (dAb p) o l)
          (fun l o => dy3 o - (dA p T3ma l (dg4 o) + dAb p T3mb (dg1 o)))
          (fun l o => dvar3 p (sq (dS p)) (sqb (dSb p)) o l)).
        -- intros o l Ho Hl. now apply Vp.
        -- exact Qp.
        -- destruct Hr as (o & l & Ho & Hl & Hn). exists o, l. repeat split; auto. lra.
      * now split.
      * now split.
      * repeat split.
      * now split.
    + exact Hm1.
  - assert (Eb : rho_turn c iter = false) by exact Et.
    destruct (up_a c || up_s c)%bool eqn:Eas.
    + assert (Ecc : (if (up_a c && (0 <? iter)%nat)%bool then dgen_constraints nl nk c true else Ok cons) = Ok cons)
        by (destruct (up_a c && (0 <? iter)%nat)%bool; [exact Ec|reflexivity]).
      rewrite Ecc. cbn [bind]. eexists. split; [reflexivity|].
      set (p' := update_AS argsort solver nl nk c cons data qi p1).
      assert (firms : forall o, In o data -> (dg1 o < nk)%nat /\ (dg4 o < nk)%nat)
        by (intros o Ho; destruct (Hok o Ho) as (? & ? & _); now split).
      assert (rows : length qi = length data) by apply length_table.
      destruct (update_AS_frame cons qi p1) as (F1 & F2 & F3 & F4 & F5 & F6 & F7 & F8 & F9 & F10 & F11 & F12 & FA & FS & _).
      fold p' in F1, F2, F3, F4, F5, F6, F7, F8, F9, F10, F11, F12, FA, FS.
      assert (SA : if up_a c
         then (dA p' = dA p /\ dAb p' = dAb p \/ A_optimal nl nk c data p (dA p') (dAb p')) /\
              (dcomplete solver -> (exists A Ab, A_optimal nl nk c data p A Ab) ->
               A_optimal nl nk c data p (dA p') (dAb p'))
         else dA p' = dA p /\ dAb p' = dAb p).
      { destruct (up_a c) eqn:Ua; [|now apply FA].
        destruct (A_step argsort argsort_ok solver exact nl nk c data qi p1 nl_pos firms rows cons_valid
                    cons Ec HAb Ua) as [W1 W2]. fold p' in W1, W2. unfold qi, p1 in W1, W2.
        rewrite A_best_optimal in W1, W2. split; [exact W1|].
        intros Hc (A & Ab & HO). apply W2; [exact Hc|]. exists A, Ab. now apply A_best_optimal. }
      assert (SV : if up_s c
         then (dS p' = dS p /\ dSb p' = dSb p \/
               V_optimal' nl nk c data p (dA p') (dAb p') (sq (dS p')) (sqb (dSb p'))) /\
              (dcomplete solver -> (exists V Vb, V_optimal' nl nk c data p (dA p') (dAb p') V Vb) ->
               V_optimal' nl nk c data p (dA p') (dAb p') (sq (dS p')) (sqb (dSb p')))
         else dS p' = dS p /\ dSb p' = dSb p).
      { destruct (up_s c) eqn:Us; [|now apply FS].
        destruct (S_step_code argsort argsort_ok solver exact nl nk c data qi p1 nl_pos firms rows cons_valid
                    (Rlt_le _ _ lb_pos) cons Ec HSb Us) as [W1 W2]. fold p' in W1, W2.
        assert (L : forall t, S_code nl nk c data qi p1 (dA p') (dAb p') t
                     = V_loss' nl nk c data p (dA p') (dAb p') (fst t) (snd t))
          by (intros t; apply V_loss_code).
        assert (O : S_ok nl nk c (sq (dS p'), sqb (dSb p')) /\
            (forall t, S_ok nl nk c t -> S_code nl nk c data qi p1 (dA p') (dAb p') (sq (dS p'), sqb (dSb p'))
                 <= S_code nl nk c data qi p1 (dA p') (dAb p') t) ->
            V_optimal' nl nk c data p (dA p') (dAb p') (sq (dS p')) (sqb (dSb p'))).
        { intros [O1 O2]. split; [now apply S_ok_feasible in O1|].
          intros W Wb HW. specialize (O2 (W, Wb)). rewrite !L in O2. cbn [fst snd] in O2.
          apply O2. now apply S_ok_feasible. }
        split.
        - destruct W1 as [W1|W1]; [now left|right; now apply O].
        - intros Hc (V & Vb & HV1 & HV2). apply O. apply W2; [exact Hc|].
          exists (V, Vb). split; [now apply S_ok_feasible|]. intros [W Wb] HW. rewrite !L. cbn [fst snd].
          apply HV2. now apply S_ok_feasible in HW. }
      split.
      * split; rewrite ?Eb; cbn [andb negb].
        -- rewrite F1. unfold p1. cbn [dset_pk1 dpk1]. exact Hpk.
        -- exact F5.
        -- exact F6.
        -- exact F7.
        -- exact SA.
        -- exact SV.
        -- repeat split; assumption.
        -- now split.
      * split; [|split].
        -- apply (S_positive p1 cons qi Hm1). fold p'.
           destruct (up_s c); [destruct SV as [[[SV _]|[SV _]] _]|destruct SV as [SV _]]; auto.
        -- destruct (up_a c); [destruct SA as [[[_ SA]|[[_ SA] _]] _]|destruct SA as [_ SA]];
             [now rewrite SA|exact SA|now rewrite SA].
        -- assert (G : V_feasible nl nk c (sq (dS p')) (sqb (dSb p')) -> b_absent nk e s (dSb p')).
           { intros (_ & _ & B1 & B2). split; intros Q k Hk;
               [specialize (B1 Q k Hk); unfold sqb in B1|specialize (B2 Q k Hk); unfold sqb in B2];
               match goal with B : ?x ^ 2 = 0 |- _ => destruct (Req_dec x 0) as [?|Nz];
                 [assumption|exfalso; exact (pow_nonzero x 2 Nz B)] end. }
           destruct (up_s c); [destruct SV as [[[_ SV]|[SV _]] _]|destruct SV as [_ SV]];
             [now rewrite SV|now apply G|now rewrite SV].
    + eexists. split; [reflexivity|]. apply Bool.orb_false_iff in Eas as [Ua Us].
      split; [|exact Hm1].
      split; rewrite ?Eb, ?Ua, ?Us; cbn [andb negb]; try reflexivity; try exact Hpk; repeat split.
Qed.

Lemma lik_reported iter p : diter_lik nl nk c iter p (dmovers_loglik nl nk p data) = reported nl nk c data iter p.
Proof. clear. unfold diter_lik, reported, lik_prior. destruct (_ && _)%bool; ring. Qed.

Lemma loop_path pp' n : forall iter cons p prev prev_min lik liks,
  dgen_constraints nl nk c true = Ok cons -> minv p ->
  exists p' lik' ls,
    dmovers_loop argsort solver pp' nl nk n c data iter cons p prev prev_min lik liks
      = Ok (p', lik', liks ++ ls) /\
    mover_path solver nl nk c data n iter prev p ls p' /\ minv p' /\
    lik' = match rev ls with [] => lik | l :: _ => Some l end.
Proof.
  induction n as [|n IH]; intros iter cons p prev prev_min lik liks Ec Hm.
  - exists p, lik, []. cbn [dmovers_loop rev]. rewrite app_nil_r. split; [reflexivity|].
    split; [constructor|]. now split.
  - cbn [dmovers_loop].
    destruct (dlp_movers_spec nl nk p data nl_pos (proj1 Hm)) as (lp & E1 & E2 & E3).
    rewrite E1. cbn [bind]. rewrite E2. cbn [bind]. rewrite E3. cbn [bind].
    rewrite lik_reported. set (r := reported nl nk c data iter p).
    destruct (converged (dthreshold c) r prev && _)%bool eqn:Ecv.
    + exists p, (Some r), [r]. split; [reflexivity|]. apply andb_prop in Ecv as [Ecv _].
      unfold converged in Ecv. destruct prev as [l0|]; [|discriminate].
      destruct (Rlt_dec (Rabs (r - l0)) (dthreshold c)) as [Hlt|]; [|discriminate].
      split; [now constructor|]. now split.
    + destruct (em_step_ok iter cons p Ec Hm) as (p1 & Eu & Hs & Hm1).
      unfold table in Eu. rewrite Eu. cbn [bind].
      destruct (IH (S iter) cons p1 (Some r) (dmin_firm_type argsort pp' nl nk p) (Some r) (liks ++ [r]) Ec Hm1)
        as (p2 & lik2 & ls & El & Hp & Hm2 & Hl).
      exists p2, lik2, (r :: ls). rewrite El. split; [now rewrite <- app_assoc|].
      split; [now apply mp_step with p1|]. split; [exact Hm2|].
      rewrite Hl. cbn [rev]. destruct (rev ls); reflexivity.
Qed.

(* relabelling worker types *)
Lemma minv_relabelled sp p p' : relabelling nl sp -> drelabelled nl nk sp (fun k => k) p p' ->
  minv p -> minv p'.
Proof.
  intros Hs HR (H & HA & HS). split; [|split].
  - intros o Ho. destruct (H o Ho) as (H1 & H2 & H3). split; [exact H1|]. split; [exact H2|]. intros l Hl.
    destruct (H3 (sp l)) as (P0 & P1 & P2 & P3 & P4); [now apply relabelling_lt|].
    rewrite (dr_pk1 _ _ _ _ _ _ HR), !(dr_S _ _ _ _ _ _ HR) by auto. auto.
  - destruct HA as [A1 A2]. split; intros Q k Hk; rewrite (dr_Ab _ _ _ _ _ _ HR) by exact Hk; auto.
  - destruct HS as [A1 A2]. split; intros Q k Hk; rewrite (dr_Sb _ _ _ _ _ _ HR) by exact Hk; auto.
Qed.
End Movers.
