(* Lemmas about dictionaries of arrays and the parameters. *)
From Coq Require Import Permutation Sorted.
From Verif Require Import Base BaseLemmas UtilModel UtilSpec BLMModel BLMSpec BLMSortLemmas SimModel SimSpec SimParamLemmas
  BLMRealModel DBLMModel DBLMSpec DBootModel DBootSpec SimDModel SimDSpec.
Local Open Scope R_scope.

Lemma get_fresh f p : get (fresh f) p = f p.
Proof. destruct p as [[]|[]]; reflexivity. Qed.
Lemma get_equal f p : get (make_equal true (fresh f)) p = f (PA T12).
Proof. destruct p as [[]|[]]; reflexivity. Qed.
Lemma get_off o f p : get (switch_off (endo o) (sdep o) (fresh f)) p = if off o p then zeroed (f p) else f p.
Proof. destruct o as [? ? [] [] ?], p as [[]|[]]; reflexivity. Qed.
Lemma get_off_cts o f p : get (switch_off_cts (endo o) (sdep o) (fresh f)) p = if off o p then Num 0 else f p.
Proof. destruct o as [? ? [] [] ?], p as [[]|[]]; reflexivity. Qed.
Lemma get_equal_off o f p : get (switch_off (endo o) (sdep o) (make_equal true (fresh f))) p
  = if endo o && sdep o then f (PA T12) else zeroed (f (PA T12)).
Proof. destruct o as [? ? [] [] ?], p as [[]|[]], (f (PA T12)) eqn:E; cbn; rewrite ?E; reflexivity. Qed.
Lemma get_equal_off_cts o f p : get (switch_off_cts (endo o) (sdep o) (make_equal true (fresh f))) p
  = if off o p then Num 0 else f (PA T12).
Proof. destruct o as [? ? [] [] ?], p as [[]|[]]; reflexivity. Qed.

Section Sort.
Variable argsort : list R -> list nat.
Variable sort : list R -> list R.
Hypothesis argsort_ok : forall l, is_argsort l (argsort l).
Hypothesis sort_ok : sorts_ok sort.

Lemma dsort_as nl nk b A Ab t : fst (dsort_A argsort sort nl nk b A Ab) t = snd (sort_A argsort sort nl nk b (A T12) (A t)).
Proof. destruct b; reflexivity. Qed.
Lemma sort_A_fst nl nk b A1 A2 : fst (sort_A argsort sort nl nk b A1 A2) = snd (sort_A argsort sort nl nk b A1 A1).
Proof. destruct b; reflexivity. Qed.

Lemma dsort_plain nl nk A Ab A' Ab' : dsort_A argsort sort nl nk false A Ab = (A', Ab') ->
  increasing nl (row_mean nk (A' T12)) /\ increasing nk (col_mean nl (A' T12)) /\
  exists s t, relabelling nl s /\ relabelling nk t /\
    (forall u l k, A' u l k = A u (s l) (t k)) /\ (forall b k, Ab' b k = Ab b (t k)).
Proof.
  intros E.
  pose proof (sort_A_plain argsort sort argsort_ok nl nk (A T12) (A T12)) as (H1 & H2 & _).
  rewrite sort_A_fst, <- (dsort_as nl nk false A Ab) in H1, H2. rewrite E in H1, H2. cbn [fst] in H1, H2.
  split; [exact H1|]. split; [exact H2|].
  unfold dsort_A in E.
  exists (fun i => nth i (argsort (row_means nl nk (A T12))) 0%nat),
    (fun i => nth i (argsort (col_means nl nk (take_rows (argsort (row_means nl nk (A T12))) (A T12)))) 0%nat).
  injection E as <- <-. split; [apply argsort_relabelling; [exact argsort_ok|apply length_row_means']|].
  split; [apply argsort_relabelling; [exact argsort_ok|apply length_col_means']|]. split; reflexivity.
Qed.

Lemma dsort_strict nl nk A Ab A' Ab' : dsort_A argsort sort nl nk true A Ab = (A', Ab') ->
  increasing nl (row_mean nk (A' T12)) /\
  (forall u l, increasing nk (A' u l)) /\ Ab' = Ab /\
  exists s, relabelling nl s /\
    forall u l, Permutation (map (A' u l) (range nk)) (map (A u (s l)) (range nk)).
Proof.
  intros E.
  assert (G : forall u, A' u = snd (sort_A argsort sort nl nk true (A T12) (A u))).
  { intros u. rewrite <- (dsort_as nl nk true A Ab), E. reflexivity. }
  pose proof (sort_A_strict argsort sort argsort_ok sort_ok nl nk (A T12)) as H.
  split. { destruct (H (A T12)) as (H1 & _). rewrite sort_A_fst, <- G in H1. exact H1. }
  split. { intros u l. destruct (H (A u)) as (_ & H2 & _). rewrite <- G in H2. apply H2. }
  unfold dsort_A in E. injection E as E1 E2. split; [now symmetry|].
  set (o := argsort (row_means nl nk (sort_rows sort nk (A T12)))) in *.
  exists (fun i => nth i o 0%nat).
  split; [apply argsort_relabelling; [exact argsort_ok|apply length_row_means']|].
  intros u l. rewrite <- E1. unfold take_rows.
  pose proof (sort_A_strict argsort sort argsort_ok sort_ok nl nk (A u) (A u)) as _.
  unfold sort_rows. destruct (sort_ok (map (A u (nth l o 0%nat)) (range nk))) as [P _].
  etransitivity; [|exact P]. replace nk with (length (sort (map (A u (nth l o 0%nat)) (range nk)))) at 1
    by (rewrite (Permutation_length P), map_length; unfold range; apply seq_length).
  generalize (sort (map (A u (nth l o 0%nat)) (range nk))) as v. intros v.
  replace (map (fun k => nth k v 0) (range (length v))) with v; [reflexivity|].
  clear. unfold range. induction v as [|x v IH]; [reflexivity|]. cbn [length seq map nth].
  rewrite <- seq_shift, map_map. now rewrite <- IH.
Qed.

Lemma dsort_additive nl nk b A Ab u : additive nl nk (A u) ->
  additive nl nk (fst (dsort_A argsort sort nl nk b A Ab) u).
Proof.
  intros H. rewrite dsort_as. exact (proj2 (sort_A_additive argsort sort argsort_ok sort_ok nl nk b (A T12) (A u)) H).
Qed.

Lemma drawn_additive o d nl nk t : additive_ o = true -> additive nl nk (drawn_A o d t).
Proof.
  intros H. unfold drawn_A, drawn. rewrite H. exists (pd_alpha d (PA t)), (pd_psi d (PA t)). reflexivity.
Qed.

Lemma gen_plain nl nk o d A S : stationary (ostat o) = false ->
  gen_AS argsort sort nl nk o d = Ok (A, S) ->
  let (A0, Ab0) := dsort_A argsort sort nl nk (strictly o) (drawn_A o d) (drawn_Ab o d) in
  forall p, get A p = (if off o p then zeroed (by_period nl nk A0 Ab0 p) else by_period nl nk A0 Ab0 p) /\
            get S p = (if off o p then zeroed (by_period nl nk (pd_S d) (pd_Sb d) p) else by_period nl nk (pd_S d) (pd_Sb d) p).
Proof.
  unfold stationary. intros H E. apply Bool.orb_false_iff in H. destruct H as [H H3]. apply Bool.orb_false_iff in H.
  destruct H as [H1 H2]. unfold gen_AS in E. rewrite H1, H2, H3 in E.
  destruct (dsort_A _ _ _ _ _ _ _) as [A0 Ab0]. cbn [make_equal make_vary bind] in E. injection E as <- <-.
  intros p. rewrite !get_off. auto.
Qed.
Lemma gen_plain_ok nl nk o d : stationary (ostat o) = false -> exists A S, gen_AS argsort sort nl nk o d = Ok (A, S).
Proof.
  unfold stationary. intros H. apply Bool.orb_false_iff in H. destruct H as [H H3].
  unfold gen_AS. rewrite H3. destruct (dsort_A _ _ _ _ _ _ _) as [A0 Ab0]. cbn [make_vary bind]. eauto.
Qed.
End Sort.

(* ---- dictionaries with two-dimensional arrays only ---- *)
Definition is2 (a : arr) : Prop := exists r c f, a = Arr2 r c f.
Definition wf (d : dict) : Prop := forall p, (name d p < next d)%nat.
Definition all2 (d : dict) : Prop := wf d /\ forall p, is2 (get d p).

Lemma dper_eqb_eq p q : dper_eqb p q = true <-> p = q.
Proof. destruct p as [[]|[]], q as [[]|[]]; cbn; split; intros; congruence. Qed.
Lemma put_all2 d p a : all2 d -> is2 a -> all2 (put d p a).
Proof.
  intros [W H] Ha. split.
  - intros q. cbn [put name next]. destruct (dper_eqb p q); [lia|]. specialize (W q). lia.
  - intros q. unfold get, put. cbn [name heap next]. destruct (dper_eqb p q) eqn:E.
    + now rewrite Nat.eqb_refl.
    + specialize (W q). replace (Nat.eqb (name d q) (next d)) with false by (symmetry; apply Nat.eqb_neq; lia).
      apply H.
Qed.
Lemma fill0_all2 d p : all2 d -> all2 (fill0 d p).
Proof.
  intros [W H]. split; [exact W|]. intros q. unfold get, fill0. cbn [name heap].
  destruct (H q) as (r & c & f & E). unfold get in E.
  destruct (Nat.eqb (name d q) (name d p)); rewrite E; cbn [zeroed]; unfold is2; eauto.
Qed.
Lemma off_all2 a b d : all2 d -> all2 (switch_off a b d).
Proof. intros H. unfold switch_off. destruct a, b; repeat apply fill0_all2; exact H. Qed.
Lemma vary_all2 on d d' : all2 d -> make_vary variation2 on d = Ok d' -> all2 d'.
Proof.
  unfold make_vary. destruct on; [|now intros H [= <-]]. generalize (tl all_periods) as ps.
  induction ps as [|p ps IH] in d |- *; intros H E; [now injection E as <-|].
  cbn [for_each] in E. destruct (variation2 (get d p) (get d (PA T12))) as [a|] eqn:V; [|discriminate].
  cbn [bind] in E. apply (IH (put d p a)); [|exact E]. apply put_all2; [exact H|].
  unfold variation2 in V. destruct (get d p); try discriminate. destruct (get d (PA T12)); try discriminate.
  destruct (_ && _); [|discriminate]. destruct (firm_type_variation _ _ _ _); [|discriminate].
  injection V as <-. unfold is2; eauto.
Qed.
Lemma equal_all2 f r c h : f (PA T12) = Arr2 r c h -> all2 (make_equal true (fresh f)).
Proof.
  intros E. split; [intros [[]|[]]; cbn; lia|]. intros p. rewrite get_equal, E. unfold is2; eauto.
Qed.
(* The loop stops at '2mb' at the latest. *)
Lemma vary_stops f n h : f (PB T2mb) = Arr1 n h -> exists e, make_vary variation2 true (fresh f) = Err e.
Proof.
  intros E. unfold make_vary. cbn [tl all_periods]. cbn [for_each].
  change (get (fresh f) (PA T43)) with (f (PA T43)). change (get (fresh f) (PA T12)) with (f (PA T12)).
  destruct (variation2 (f (PA T43)) (f (PA T12))) as [a1|]; [|eexists; reflexivity].
  cbn [bind]. change (get (put _ (PA T43) a1) (PA T2ma)) with (f (PA T2ma)).
  change (get (put _ (PA T43) a1) (PA T12)) with (f (PA T12)).
  destruct (variation2 (f (PA T2ma)) (f (PA T12))) as [a2|]; [|eexists; reflexivity].
  cbn [bind]. change (get (put _ (PA T2ma) a2) (PA T3ma)) with (f (PA T3ma)).
  change (get (put _ (PA T2ma) a2) (PA T12)) with (f (PA T12)).
  destruct (variation2 (f (PA T3ma)) (f (PA T12))) as [a3|]; [|eexists; reflexivity].
  cbn [bind]. change (get (put _ (PA T3ma) a3) (PB T2mb)) with (f (PB T2mb)). rewrite E.
  cbn [variation2]. eexists; reflexivity.
Qed.

Lemma gen_stationary_A argsort sort nl nk o d A S : stat_A (ostat o) = true ->
  gen_AS argsort sort nl nk o d = Ok (A, S) -> is2 (get A (PB T2mb)).
Proof.
  intros H E. unfold gen_AS in E. rewrite H in E. destruct (dsort_A _ _ _ _ _ _ _) as [A0 Ab0].
  destruct (make_vary _ _ _) as [dA|] eqn:V; [|discriminate]. cbn [bind] in E. injection E as <- _.
  apply off_all2, (vary_all2 _ _ _ (equal_all2 _ _ _ _ eq_refl) V).
Qed.
Lemma gen_stationary_S argsort sort nl nk o d A S : stat_S (ostat o) = true ->
  gen_AS argsort sort nl nk o d = Ok (A, S) -> is2 (get S (PB T2mb)).
Proof.
  intros H E. unfold gen_AS in E. rewrite H in E. destruct (dsort_A _ _ _ _ _ _ _) as [A0 Ab0].
  destruct (make_vary _ _ _) as [dA|] eqn:V; [|discriminate]. cbn [bind] in E. injection E as _ <-.
  apply off_all2, (equal_all2 _ _ _ _ eq_refl).
Qed.
Lemma gen_variation argsort sort nl nk o d : stat_A (ostat o) = false -> stat_var (ostat o) = true ->
  exists e, gen_AS argsort sort nl nk o d = Err e.
Proof.
  intros H1 H. unfold gen_AS. rewrite H, H1. destruct (dsort_A _ _ _ _ _ _ _) as [A0 Ab0]. cbn [make_equal].
  destruct (vary_stops (by_period nl nk A0 Ab0) _ _ eq_refl) as (e & ->). eexists; reflexivity.
Qed.
Lemma gen_stationary argsort sort nl nk o d A S : stationary (ostat o) = true ->
  gen_AS argsort sort nl nk o d = Ok (A, S) -> is2 (get A (PB T2mb)) \/ is2 (get S (PB T2mb)).
Proof.
  intros H E. destruct (stat_A (ostat o)) eqn:a; [left; eapply gen_stationary_A; eauto|].
  destruct (stat_S (ostat o)) eqn:b; [right; eapply gen_stationary_S; eauto|].
  unfold stationary in H. rewrite a, b in H. cbn in H.
  destruct (gen_variation argsort sort nl nk o d a H) as (e & E'). congruence.
Qed.
Lemma gen_cat_int nl o c A S : cat_int c = true -> stationary (cat_stat c) = true ->
  gen_cat nl o c = Ok (A, S) -> is2 (get A (PB T2mb)) \/ is2 (get S (PB T2mb)).
Proof.
  intros I H E. unfold gen_cat in E. rewrite I in E.
  assert (E12 : forall f, cat_arr nl c f (PA T12) = Arr2 nl (cat_n c) (f (PA T12))) by (intros; unfold cat_arr; now rewrite I).
  destruct (make_vary _ _ _) as [dA|] eqn:V; [|discriminate]. cbn [bind] in E. injection E as <- <-.
  destruct (stat_A (cat_stat c)) eqn:a.
  { left. apply off_all2, (vary_all2 _ _ _ (equal_all2 _ _ _ _ (E12 _)) V). }
  destruct (stat_S (cat_stat c)) eqn:b. { right. apply off_all2, (equal_all2 _ _ _ _ (E12 _)). }
  unfold stationary in H. rewrite a, b in H. cbn in H. rewrite H in V. cbn [make_equal] in V.
  destruct (vary_stops (cat_arr nl c (cat_A c)) (cat_n c) (cat_A c (PB T2mb) 0%nat)) as (e & E').
  { unfold cat_arr. now rewrite Bool.andb_false_r. }
  congruence.
Qed.

(* Continuous control variables. *)
Lemma gen_cts_plain nl o c A S : stationary (cts_stat c) = false -> gen_cts nl o c = Ok (A, S) ->
  forall p, get A p = (if off o p then Num 0 else cts_arr nl c (cts_A c) p) /\ get S p = (if off o p then Num 0 else cts_arr nl c (cts_S c) p).
Proof.
  unfold stationary. intros H E. apply Bool.orb_false_iff in H. destruct H as [H H3]. apply Bool.orb_false_iff in H.
  destruct H as [H1 H2]. unfold gen_cts in E. rewrite H1, H2, H3 in E.
  cbn [make_equal make_vary bind] in E. injection E as <- <-. intros p. rewrite !get_off_cts. auto.
Qed.
Lemma gen_cat_plain nl o c A S : stationary (cat_stat c) = false -> gen_cat nl o c = Ok (A, S) ->
  forall p, get A p = (if off o p then zeroed (cat_arr nl c (cat_A c) p) else cat_arr nl c (cat_A c) p) /\ get S p = (if off o p then zeroed (cat_arr nl c (cat_S c) p) else cat_arr nl c (cat_S c) p).
Proof.
  unfold stationary. intros H E. apply Bool.orb_false_iff in H. destruct H as [H H3]. apply Bool.orb_false_iff in H.
  destruct H as [H1 H2]. unfold gen_cat in E. rewrite H1, H2, H3 in E.
  cbn [make_equal make_vary bind] in E. injection E as <- <-. intros p. rewrite !get_off. auto.
Qed.
