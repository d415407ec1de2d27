From Verif Require Import Base BaseLemmas SBootModel SBootSpec.
Local Open Scope nat_scope.
Local Open Scope list_scope.

Section P.
Context {X M G : Type}.
Variable sample : R -> option (list R) -> nat -> G -> res (list nat * G).
Variable cluster : list (srow X) -> G -> res (list (nat * nat) * G).
Variable fit : list (srow X) -> list (srow X) -> G -> res (M * G).
Variable weight : srow X -> R.

Lemma take_drawn (d : list (srow X)) pos d' : take_rows d pos = Ok d' -> drawn d pos d' /\ incl d' d.
Proof.
  unfold take_rows. revert d'. induction pos as [|i pos IH]; cbn; intros d' H.
  - injection H as <-. split; [constructor|intros x []].
  - destruct (nth_error d i) as [r|] eqn:E; [|discriminate]. cbn [bind] in H.
    destruct (traverse _ pos) as [ys|] eqn:T; [|discriminate]. cbn [bind] in H. injection H as <-.
    destruct (IH ys eq_refl) as (A & B). split.
    + constructor; [|exact A]. exists r. now repeat split.
    + intros x [<-|Hx]; [now apply nth_error_In in E|auto].
Qed.
Lemma take_ok (d : list (srow X)) pos : Forall (fun i => i < length d) pos -> exists d', take_rows d pos = Ok d'.
Proof.
  unfold take_rows. induction 1 as [|i pos H F IH]; cbn; [eauto|].
  apply nth_error_Some in H. destruct (nth_error d i) as [r|]; [|congruence]. cbn [bind]. destruct IH as (d' & ->). cbn. eauto.
Qed.

Lemma drawn_map (d : list (srow X)) pos d' h : (forall r, In r d' -> s_j (h r) = s_j r /\ s_x (h r) = s_x r) -> drawn d pos d' -> drawn d pos (map h d').
Proof.
  unfold drawn. intros H D. induction D as [|i r' pos d' (r & E & A & B) D IH]; cbn; constructor.
  - exists r. destruct (H r' (or_introl eq_refl)) as (H1 & H2). now rewrite H1, H2.
  - apply IH. intros a Ha. apply H. now right.
Qed.

Lemma class_of_in out f c : class_of out f = Some c -> In (f, c) out.
Proof.
  induction out as [|[f' c'] out IH]; cbn; [discriminate|]. destruct (Nat.eqb_spec f f') as [->|]; [intros [= ->]; now left|auto].
Qed.
Lemma class_of_some out f c : In (f, c) out -> exists v, class_of out f = Some v /\ In (f, v) out.
Proof.
  intros H. destruct (class_of out f) as [v|] eqn:E.
  - exists v. split; [reflexivity|now apply class_of_in].
  - exfalso. induction out as [|[f' c'] out IH]; cbn in *; [easy|]. destruct (Nat.eqb_spec f f'); [discriminate|].
    destruct H as [[= -> ->]|H]; [congruence|auto].
Qed.

Definition has_classes (out : list (nat * nat)) (r : srow X) : Prop := forall f, In f (s_j r) -> exists c, In (f, c) out.

Lemma classed_m out r : has_classes out r -> classed out (reclass_m out r).
Proof.
  unfold classed, reclass_m, has_classes. cbn. intros H. induction (s_j r) as [|f l IH]; cbn; constructor.
  - destruct (H f (or_introl eq_refl)) as (c & Hc). destruct (class_of_some _ _ _ Hc) as (v & E & I). now exists v.
  - apply IH. intros a Ha. apply H. now right.
Qed.
Lemma classed_s out r : stayer r -> has_classes out r -> classed out (reclass_s out r).
Proof.
  intros (f & F) H. replace (reclass_s out r) with (reclass_m out r); [now apply classed_m|].
  unfold reclass_s, reclass_m. f_equal. destruct F as [|a l <- F]; [reflexivity|]. cbn. f_equal.
  induction F as [|b l <- F IH]; cbn; congruence.
Qed.
Lemma classed_d out r : dmover r -> has_classes out r -> dreclass_m out r = Ok (reclass_m out r).
Proof. intros (a & b & E) H. unfold dreclass_m, reclass_m. now rewrite E. Qed.

Hypothesis KEEP : keeps_firms cluster.
Variables (dynamic use_wj use_ws : bool) (fj fs : R) (jd sd : list (srow X)).
Hypothesis ST : Forall stayer sd.
Hypothesis DM : dynamic = true -> Forall dmover jd.
Let wj := if use_wj then Some (map weight jd) else None.
Let ws := if use_ws then Some (map weight sd) else None.

Lemma one_ok g m g' : one_sample sample cluster fit weight dynamic use_wj use_ws fj fs jd sd g = Ok (m, g') ->
  sampled sample cluster fit fj fs wj ws jd sd g m g'.
Proof.
  unfold one_sample. fold wj. fold ws. intros H.
  destruct (sample fj wj (length jd) g) as [[pj g1]|] eqn:E1; [|discriminate]. cbn [bind] in H.
  destruct (take_rows jd pj) as [ji|] eqn:E2; [|discriminate]. cbn [bind] in H.
  destruct (sample fs ws (length sd) g1) as [[ps g2]|] eqn:E3; [|discriminate]. cbn [bind] in H.
  destruct (take_rows sd ps) as [si|] eqn:E4; [|discriminate]. cbn [bind] in H.
  destruct (cluster (ji ++ si) g2) as [[out g3]|] eqn:E5; [|discriminate]. cbn [bind] in H.
  destruct (take_drawn _ _ _ E2) as (Dj & Ij). destruct (take_drawn _ _ _ E4) as (Ds & Is).
  assert (Kj : forall r, In r ji -> has_classes out r).
  { intros r Hr f Hf. apply (KEEP _ _ _ _ E5 r f); [apply in_app_iff; now left|assumption]. }
  assert (Ks : forall r, In r si -> has_classes out r).
  { intros r Hr f Hf. apply (KEEP _ _ _ _ E5 r f); [apply in_app_iff; now right|assumption]. }
  assert (T : (if dynamic then traverse (dreclass_m out) ji else Ok (map (reclass_m out) ji)) = Ok (map (reclass_m out) ji)).
  { destruct dynamic; [|reflexivity]. apply traverse_ok. intros r Hr. apply classed_d; [|auto].
    specialize (DM eq_refl). rewrite Forall_forall in DM. auto. }
  rewrite T in H. cbn [bind] in H.
  exists pj, g1, ps, g2, ji, si, out, g3, (map (reclass_m out) ji), (map (reclass_s out) si).
  repeat split; try assumption.
  - apply drawn_map; [|assumption]. now intros r _.
  - apply drawn_map; [|assumption]. now intros r _.
  - apply Forall_forall. intros r Hr. apply in_map_iff in Hr. destruct Hr as (r' & <- & Hr). apply classed_m. auto.
  - apply Forall_forall. intros r Hr. apply in_map_iff in Hr. destruct Hr as (r' & <- & Hr). apply classed_s; [|auto].
    rewrite Forall_forall in ST. auto.
Qed.

Lemma samples_ok n : forall g ms g', samples sample cluster fit weight n dynamic use_wj use_ws fj fs jd sd g = Ok (ms, g') ->
  length ms = n /\ chain (sampled sample cluster fit fj fs wj ws jd sd) g ms.
Proof.
  induction n as [|n IH]; cbn; intros g ms g' H.
  - injection H as <- <-. split; [reflexivity|constructor].
  - destruct (one_sample _ _ _ _ _ _ _ _ _ _ _ g) as [[m g1]|] eqn:E1; [|discriminate]. cbn [bind] in H.
    destruct (samples _ _ _ _ n _ _ _ _ _ _ _ g1) as [[ms' g2]|] eqn:E2; [|discriminate]. cbn [bind] in H. injection H as <- <-.
    destruct (IH _ _ _ E2) as (L & C). split; [cbn; congruence|]. econstructor; [exact (one_ok _ _ _ E1)|exact C].
Qed.
End P.

Lemma standard_lemma {X M G} sample cluster (fit : list (srow X) -> list (srow X) -> G -> res (M * G)) weight n dynamic use_wj use_ws fj fs jd sd g ms :
  keeps_firms cluster -> Forall stayer sd -> (dynamic = true -> Forall dmover jd) ->
  standard sample cluster fit weight n dynamic use_wj use_ws fj fs jd sd g = Ok ms ->
  length ms = n /\
  chain (sampled sample cluster fit fj fs
    (if use_wj && negb dynamic then Some (map weight jd) else None)
    (if use_ws && negb dynamic then Some (map weight sd) else None) jd sd) g ms.
Proof.
  intros K ST DM H. unfold standard in H.
  destruct (samples _ _ _ _ _ _ _ _ _ _ _ _ _) as [[ms' g']|] eqn:E; [|discriminate]. cbn in H. injection H as <-.
  exact (samples_ok sample cluster fit weight K dynamic _ _ fj fs jd sd ST DM n g ms' g' E).
Qed.

Lemma standard_returns {X M G} sample cluster (fit : list (srow X) -> list (srow X) -> G -> res (M * G)) weight n dynamic use_wj use_ws fj fs jd sd :
  (forall f w k g, exists pos g', sample f w k g = Ok (pos, g') /\ Forall (fun i => i < k) pos) ->
  (forall d g, exists o, cluster d g = Ok o) -> (forall j s g, exists o, fit j s g = Ok o) ->
  (dynamic = true -> Forall dmover jd) ->
  forall g, exists ms, standard sample cluster fit weight n dynamic use_wj use_ws fj fs jd sd g = Ok ms.
Proof.
  intros HS HC HF DM. unfold standard. generalize (use_wj && negb dynamic), (use_ws && negb dynamic). intros bj bs.
  assert (Q : forall g, exists o, samples sample cluster fit weight n dynamic bj bs fj fs jd sd g = Ok o).
  { induction n as [|n IH]; intros g; cbn; [eauto|].
    assert (O : exists m g', one_sample sample cluster fit weight dynamic bj bs fj fs jd sd g = Ok (m, g')).
    { unfold one_sample. destruct (HS fj (if bj then Some (map weight jd) else None) (length jd) g) as (pj & g1 & -> & F1). cbn [bind].
      destruct (take_ok jd pj F1) as (ji & E1). rewrite E1. cbn [bind].
      destruct (HS fs (if bs then Some (map weight sd) else None) (length sd) g1) as (ps & g2 & -> & F2). cbn [bind].
      destruct (take_ok sd ps F2) as (si & E2). rewrite E2. cbn [bind].
      destruct (HC (ji ++ si) g2) as ([out g3] & ->). cbn [bind].
      assert (T : exists o, (if dynamic then traverse (dreclass_m out) ji else Ok (map (reclass_m out) ji)) = Ok o).
      { destruct dynamic; [|eauto]. exists (map (reclass_m out) ji). apply traverse_ok. intros r Hr.
        specialize (DM eq_refl). rewrite Forall_forall in DM. destruct (DM r) as (a & b & E).
        { now apply (take_drawn jd pj ji E1). }
        unfold dreclass_m, reclass_m. now rewrite E. }
      destruct T as (ji' & ->). cbn [bind]. destruct (HF ji' (map (reclass_s out) si) g3) as ([m g'] & ->). eauto. }
    destruct O as (m & g1 & ->). cbn [bind]. destruct (IH g1) as ([ms g2] & ->). cbn. eauto. }
  intros g. destruct (Q g) as ([ms g'] & ->). cbn. eauto.
Qed.

Lemma class_of_none out n f : (forall f' c, In (f', c) out -> f' < n) -> n <= f -> class_of out f = None.
Proof. intros H L. destruct (class_of out f) as [c|] eqn:E; [|reflexivity]. apply class_of_in in E. apply H in E. lia. Qed.

Lemma renumbered {X M G} sample cluster (fit : list (srow X) -> list (srow X) -> G -> res (M * G)) weight use_wj use_ws fj fs jd sd g m g' :
  renumbers cluster -> one_sample sample cluster fit weight false use_wj use_ws fj fs jd sd g = Ok (m, g') ->
  exists ji si g3, fit ji si g3 = Ok (m, g') /\
    forall r t f, In r ji -> nth_error (s_j r) t = Some f -> length (firms_of (ji ++ si)) <= f -> nth_error (s_g r) t = Some None.
Proof.
  intros R H. unfold one_sample in H.
  destruct (sample _ _ (length jd) g) as [[pj g1]|]; [|discriminate]. cbn [bind] in H.
  destruct (take_rows jd pj) as [ji|] eqn:E2; [|discriminate]. cbn [bind] in H.
  destruct (sample _ _ (length sd) g1) as [[ps g2]|]; [|discriminate]. cbn [bind] in H.
  destruct (take_rows sd ps) as [si|] eqn:E4; [|discriminate]. cbn [bind] in H.
  destruct (cluster (ji ++ si) g2) as [[out g3]|] eqn:E5; [|discriminate]. cbn [bind] in H.
  exists (map (reclass_m out) ji), (map (reclass_s out) si), g3. split; [exact H|]. intros r t f Hr Ht L.
  apply in_map_iff in Hr. destruct Hr as (r0 & <- & Hr). cbn [reclass_m s_j s_g] in Ht |- *.
  rewrite (map_nth_error _ _ _ Ht). f_equal. apply (class_of_none _ (length (firms_of (ji ++ si)))); [exact (R _ _ _ _ E5)|].
  replace (firms_of (ji ++ si)) with (firms_of (map (reclass_m out) ji ++ map (reclass_s out) si)); [exact L|].
  unfold firms_of. f_equal. rewrite !flat_map_concat_map, !map_app, !map_map. reflexivity.
Qed.
