(* Sorting of types in the dynamic model. *)
From Verif Require Import Base BaseLemmas UtilModel UtilSpec BLMModel BLMEMModel BLMSpec BLMSortLemmas
  BLMLikLemmas DBLMModel DBLMSpec.
From Coq Require Import Permutation Sorted.
Local Open Scope R_scope.

Lemma drelabelled_ext nl nk s t s' t' p p' :
  (forall l, (l < nl)%nat -> s' l = s l) -> (forall k, (k < nk)%nat -> t' k = t k) ->
  drelabelled nl nk s t p p' -> drelabelled nl nk s' t' p p'.
Proof.
  intros Hs Ht H. destruct H; constructor; auto; intros; rewrite ?Hs, ?Ht by assumption; auto.
Qed.

Lemma drelabelled_refl nl nk p : drelabelled nl nk (fun i => i) (fun i => i) p p.
Proof. constructor; auto. Qed.

Lemma dsort_workers_relabelled nl nk o p :
  drelabelled nl nk (fun i => nth i o 0%nat) (fun k => k) p (dsort_workers o p).
Proof. constructor; simpl; auto. Qed.

Lemma dsort_firms_relabelled nl nk o p :
  Permutation o (range nk) ->
  drelabelled nl nk (fun l => l) (fun k => nth k o 0%nat) p (dsort_firms nk o p).
Proof.
  intros Ho. pose proof (perm_length _ _ Ho) as Hlen.
  constructor; simpl; auto.
  intros k1 k2 l H1 H2 Hl. unfold take_rows.
  pose proof (relabelling_lt _ _ k2 (perm_relabelling _ _ Ho) H2) as H3. cbv beta in H3.
  replace (k1 + nk * k2)%nat with (k2 * nk + k1)%nat by lia.
  rewrite nth_order_2 by assumption.
  replace (nk * nth k2 o 0 + k1)%nat with (nth k2 o 0 * nk + k1)%nat by lia.
  rewrite nth_order_1 by assumption. reflexivity.
Qed.

Lemma drelabelled_trans nl nk s t s' t' p q r :
  relabelling nl s' -> relabelling nk t' ->
  drelabelled nl nk s t p q -> drelabelled nl nk s' t' q r ->
  drelabelled nl nk (fun l => s (s' l)) (fun k => t (t' k)) p r.
Proof.
  intros Hs Ht H G.
  assert (L : forall l, (l < nl)%nat -> (s' l < nl)%nat) by (intros; now apply relabelling_lt).
  assert (K : forall k, (k < nk)%nat -> (t' k < nk)%nat) by (intros; now apply relabelling_lt).
  destruct H as [HA HS HAb HSb HP1 HP0 HM HN HR].
  destruct G as [GA GS GAb GSb GP1 GP0 GM GN GR].
  constructor; intros.
  - rewrite GA by auto. auto.
  - rewrite GS by auto. auto.
  - rewrite GAb by auto. auto.
  - rewrite GSb by auto. auto.
  - rewrite GP1 by auto. auto.
  - rewrite GP0 by auto. auto.
  - rewrite GM by auto. auto.
  - rewrite GN by auto. auto.
  - destruct HR as (? & ? & ? & ?), GR as (? & ? & ? & ?). repeat split; congruence.
Qed.

Lemma dworker_mean pp nl nk s t p p' l :
  relabelling nk t -> drelabelled nl nk s t p p' -> (l < nl)%nat ->
  worker_mean pp nk (dA p' T12) (dA p' T43) l = worker_mean pp nk (dA p T12) (dA p T43) (s l).
Proof.
  intros Ht H Hl. unfold worker_mean. f_equal.
  rewrite <- (relabelling_sumn nk t (fun k => primary pp (dA p T12) (dA p T43) (s l) k) Ht).
  apply sumn_ext. intros k Hk.
  destruct pp; simpl; rewrite ?(dr_A _ _ _ _ _ _ H) by assumption; reflexivity.
Qed.
Lemma dfirm_mean pp nl nk s t p p' k :
  relabelling nl s -> drelabelled nl nk s t p p' -> (k < nk)%nat ->
  firm_mean pp nl (dA p' T12) (dA p' T43) k = firm_mean pp nl (dA p T12) (dA p T43) (t k).
Proof.
  intros Hs H Hk. unfold firm_mean. f_equal.
  rewrite <- (relabelling_sumn nl s (fun l => primary pp (dA p T12) (dA p T43) l (t k)) Hs).
  apply sumn_ext. intros l Hl.
  destruct pp; simpl; rewrite ?(dr_A _ _ _ _ _ _ H) by assumption; reflexivity.
Qed.

Section Sort.
Variable argsort : list R -> list nat.
Hypothesis argsort_ok : forall l, is_argsort l (argsort l).

Lemma dsort_spec pp nl nk (sf reverse : bool) p :
  let p' := dsort_parameters argsort pp nl nk sf reverse p in
  exists s t, relabelling nl s /\ relabelling nk t
    /\ (sf = false -> forall k, t k = k)
    /\ drelabelled nl nk s t p p'
    /\ ordered reverse nl (worker_mean pp nk (dA p' T12) (dA p' T43))
    /\ (sf = true -> ordered reverse nk (firm_mean pp nl (dA p' T12) (dA p' T43))).
Proof.
  intros p'. set (Am := A_mean pp (dA p T12) (dA p T43)).
  set (wo := if reverse then rev (argsort (row_means nl nk Am)) else argsort (row_means nl nk Am)).
  set (fo := if reverse then rev (argsort (col_means nl nk Am)) else argsort (col_means nl nk Am)).
  assert (Pw : Permutation wo (range nl)).
  { pose proof (order_perm argsort argsort_ok (row_means nl nk Am) reverse) as P.
    rewrite length_row_means in P. exact P. }
  assert (Pf : Permutation fo (range nk)).
  { pose proof (order_perm argsort argsort_ok (col_means nl nk Am) reverse) as P.
    rewrite length_col_means in P. exact P. }
  set (sw := fun i => nth i wo 0%nat). set (tf := fun i => nth i fo 0%nat).
  set (t := if sf then tf else fun k => k).
  assert (Rw : relabelling nl sw) by now apply perm_relabelling.
  assert (Rf : relabelling nk tf) by now apply perm_relabelling.
  assert (Rt : relabelling nk t) by (unfold t; destruct sf; [exact Rf|apply id_relabelling]).
  set (q := if out_of_order wo nl then dsort_workers wo p else p).
  assert (Hq : drelabelled nl nk sw (fun k => k) p q).
  { unfold q. destruct (out_of_order wo nl) eqn:E; [apply dsort_workers_relabelled|].
    apply in_order_id in E. eapply drelabelled_ext; [|reflexivity|apply drelabelled_refl].
    intros l Hl. unfold sw. rewrite E. now apply nth_range. }
  assert (Hp' : drelabelled nl nk sw t p p').
  { assert (E : p' = if sf then if out_of_order fo nk then dsort_firms nk fo q else q else q)
      by reflexivity.
    rewrite E. unfold t. clear E. destruct sf; [|exact Hq].
    assert (Hr : drelabelled nl nk (fun l => l) tf q
                   (if out_of_order fo nk then dsort_firms nk fo q else q)).
    { destruct (out_of_order fo nk) eqn:E; [now apply dsort_firms_relabelled|].
      apply in_order_id in E. eapply drelabelled_ext; [reflexivity| |apply drelabelled_refl].
      intros k Hk. unfold tf. rewrite E. now apply nth_range. }
    exact (drelabelled_trans nl nk _ _ _ _ _ _ _ (id_relabelling nl) Rf Hq Hr). }
  exists sw, t. split; [exact Rw|]. split; [exact Rt|].
  split; [unfold t; now intros ->|]. split; [exact Hp'|]. split.
  - intros i j Hij.
    rewrite (dworker_mean pp nl nk sw t p p' i Rt Hp') by lia.
    rewrite (dworker_mean pp nl nk sw t p p' j Rt Hp') by lia.
    pose proof (sorted_order reverse (row_means nl nk Am) _ i j (argsort_ok _)) as Q.
    rewrite length_row_means in Q. specialize (Q Hij). cbv zeta in Q. fold wo in Q.
    pose proof (relabelling_lt nl sw i Rw ltac:(lia)) as Li.
    pose proof (relabelling_lt nl sw j Rw ltac:(lia)) as Lj.
    change (nth i wo 0%nat) with (sw i) in Q. change (nth j wo 0%nat) with (sw j) in Q.
    rewrite !nth_row_means in Q by assumption.
    unfold worker_mean. unfold Am in Q. rewrite A_mean_primary in Q. exact Q.
  - intros Esf i j Hij.
    rewrite (dfirm_mean pp nl nk sw t p p' i Rw Hp') by lia.
    rewrite (dfirm_mean pp nl nk sw t p p' j Rw Hp') by lia.
    assert (Et : t = tf) by (unfold t; now rewrite Esf). rewrite Et.
    pose proof (sorted_order reverse (col_means nl nk Am) _ i j (argsort_ok _)) as Q.
    rewrite length_col_means in Q. specialize (Q Hij). cbv zeta in Q. fold fo in Q.
    pose proof (relabelling_lt nk tf i Rf ltac:(lia)) as Li.
    pose proof (relabelling_lt nk tf j Rf ltac:(lia)) as Lj.
    change (nth i fo 0%nat) with (tf i) in Q. change (nth j fo 0%nat) with (tf j) in Q.
    rewrite !nth_col_means in Q by assumption.
    unfold firm_mean. unfold Am in Q. rewrite A_mean_primary in Q. exact Q.
Qed.
End Sort.

(* ---- likelihood ---- *)
Ltac same_row_tac H :=
  let e := fresh in
  destruct H as (? & ? & e & ? & ? & ? & ? & ?).

Lemma dmover_density_relabelled nl nk s t p p' o o' l :
  relabelling nl s -> drelabelled nl nk s t p p' -> dsame_row nk t o o' -> (l < nl)%nat ->
  dmover_density p' o' l = dmover_density p o (s l).
Proof.
  intros Hs H (H1 & H4 & E1 & E4 & F1 & F2 & F3 & F4) Hl.
  destruct (dr_rho _ _ _ _ _ _ H) as (Q1 & Q2 & Q3 & Q4).
  unfold dmover_density, mean1, mean2, mean3, mean4, dvar1, dvar2, dvar3, dvar4, mean2, dvar2, sq, sqb.
  rewrite !(dr_A _ _ _ _ _ _ H), !(dr_S _ _ _ _ _ _ H), !(dr_Ab _ _ _ _ _ _ H),
    !(dr_Sb _ _ _ _ _ _ H) by assumption.
  rewrite Q1, Q2, Q3, E1, E4, F1, F2, F3, F4. reflexivity.
Qed.
Lemma dstayer_density_relabelled nl nk s t p p' o o' l :
  relabelling nl s -> drelabelled nl nk s t p p' -> dsame_row nk t o o' -> (l < nl)%nat ->
  dstayer_density p' o' l = dstayer_density p o (s l).
Proof.
  intros Hs H (H1 & H4 & E1 & E4 & F1 & F2 & F3 & F4) Hl.
  destruct (dr_rho _ _ _ _ _ _ H) as (Q1 & Q2 & Q3 & Q4).
  unfold dstayer_density, smean1, smean3, smean4, svar1, svar3, svar4, sq.
  rewrite !(dr_A _ _ _ _ _ _ H), !(dr_S _ _ _ _ _ _ H) by assumption.
  rewrite Q1, Q2, Q4, E1, F1, F2, F3, F4. reflexivity.
Qed.

Lemma dloglik_relabelled nl nk s t p p' data data' :
  relabelling nl s -> drelabelled nl nk s t p p' -> Forall2 (dsame_row nk t) data data' ->
  dmovers_loglik nl nk p' data' = dmovers_loglik nl nk p data
  /\ dstayers_loglik nl p' data' = dstayers_loglik nl p data.
Proof.
  intros Hs H F. unfold dmovers_loglik, dstayers_loglik.
  rewrite <- (Forall2_len _ _ _ F). split; f_equal; symmetry.
  - apply (rsum_Forall2 (dsame_row nk t)); [|exact F]. intros o o' Ho. f_equal. symmetry.
    unfold mixture_m, mixture.
    rewrite <- (relabelling_sumn nl s
      (fun l => dpk1 p (dg1 o + nk * dg4 o)%nat l * dmover_density p o l) Hs).
    apply sumn_ext. intros l Hl. rewrite (dmover_density_relabelled nl nk s t p p' o) by assumption.
    destruct Ho as (H1 & H4 & E1 & E4 & _).
    rewrite (dr_pk1 _ _ _ _ _ _ H) by assumption. now rewrite E1, E4.
  - apply (rsum_Forall2 (dsame_row nk t)); [|exact F]. intros o o' Ho. f_equal. symmetry.
    unfold mixture_s, mixture.
    rewrite <- (relabelling_sumn nl s (fun l => dpk0 p (dg1 o) l * dstayer_density p o l) Hs).
    apply sumn_ext. intros l Hl. rewrite (dstayer_density_relabelled nl nk s t p p' o) by assumption.
    destruct Ho as (H1 & H4 & E1 & E4 & _).
    rewrite (dr_pk0 _ _ _ _ _ _ H) by assumption. now rewrite E1.
Qed.
