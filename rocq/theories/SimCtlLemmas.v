(* Proofs about control variables in data simulated by SimBLM. *)
From Verif Require Import Base BaseLemmas UtilModel UtilSpec BLMModel BLMEMModel BLMSpec SimModel SimSpec SimLemmas SimParamLemmas
  BootLemmas UtilQuantLemmas SimCtlModel SimCtlSpec.
Local Open Scope R_scope.

(* ---- rows ---------------------------------------------------------------------- *)

Lemma sumsq_pos l Sc Sx c : 0 <= ctl_sumsq l Sc Sx c.
Proof.
  unfold ctl_sumsq. rewrite fold_cts2, fold_cat2.
  assert (P : forall xs : list R, (forall x, In x xs -> 0 <= x) -> 0 <= rsum xs).
  { induction xs as [|x xs IH]; intros H; unfold rsum; simpl; [lra|].
    pose proof (H x (or_introl eq_refl)). unfold rsum in IH. pose proof (IH (fun y Hy => H y (or_intror Hy))). lra. }
  assert (0 <= rsum (map2 (fun a n => cat_at l n a ^ 2) Sc c)).
  { apply P. intros x Hx. rewrite map2_combine in Hx. apply in_map_iff in Hx. destruct Hx as (y & <- & _). apply pow2_ge_0. }
  assert (0 <= rsum (map (fun c => cts_sd l c ^ 2) Sx)).
  { apply P. intros x Hx. apply in_map_iff in Hx. destruct Hx as (y & <- & _). apply pow2_ge_0. }
  lra.
Qed.

Lemma nth_map_range {A} (f : nat -> A) n d j : (j < n)%nat -> nth j (map f (range n)) d = f j.
Proof.
  intros H. rewrite (nth_indep _ _ (f 0%nat)) by (rewrite map_length; unfold range; now rewrite seq_length).
  rewrite map_nth. unfold range. rewrite seq_nth by assumption. reflexivity.
Qed.

Section Rows.
Variable p : par.
Variables ncat ncts : nat.
Hypothesis sh : shapes_ok p.
Hypothesis lc : length (A1_cat p) = ncat.
Hypothesis lx : length (A1_cts p) = ncts.
Variable d : cdraws.

Lemma add_same i o : same_worker (add_controls p ncat ncts d i o) o.
Proof.
  unfold add_controls, same_worker. destruct (_ && _); cbn; repeat split.
Qed.
Lemma add_records i o : records ncat ncts d i (add_controls p ncat ncts d i o).
Proof.
  unfold add_controls, records. destruct ((ncat =? 0) && (ncts =? 0))%nat eqn:E.
  - apply andb_true_iff in E. rewrite !Nat.eqb_eq in E. destruct E as [-> ->]. cbn. repeat split; intros; lia.
  - cbn [k_c1 k_c2 k_x1 k_x2]. rewrite !map_length. unfold range at 1 2 3 4. rewrite !seq_length.
    do 4 (split; [reflexivity|]). split; intros j Hj; now rewrite !nth_map_range.
Qed.
Lemma add_adds i o : adds p (add_controls p ncat ncts d i o) o (d_z1 d i) (d_z2 d i).
Proof.
  unfold adds, add_controls. destruct ((ncat =? 0) && (ncts =? 0))%nat eqn:E.
  - apply andb_true_iff in E. rewrite !Nat.eqb_eq in E. destruct E as [E1 E2].
    destruct sh as (L1 & L2 & L3 & L4 & L5 & L6).
    assert (N1 : A1_cat p = []) by (apply nil_len; congruence). assert (N2 : A1_cts p = []) by (apply nil_len; congruence).
    assert (M1 : S1_cat p = []) by (apply nil_len; congruence). assert (M2 : A2_cat p = []) by (apply nil_len; congruence).
    assert (M3 : S2_cat p = []) by (apply nil_len; congruence). assert (M4 : S1_cts p = []) by (apply nil_len; congruence).
    assert (M5 : A2_cts p = []) by (apply nil_len; congruence). assert (M6 : S2_cts p = []) by (apply nil_len; congruence).
    exists 0, 0. unfold var1, var2, mu1, mu2, cat_sum, obs_of. rewrite N1, N2, M1, M2, M3, M4, M5, M6.
    cbn. repeat split; try lra.
  - cbn [k_o o_row s_l s_y1 s_y2 s_g1 s_g2]. set (l := s_l (o_row o)).
    set (k1 := map (d_c1 d i) (range ncat)). set (k2 := map (d_c2 d i) (range ncat)).
    exists (sqrt (ctl_sumsq l (S1_cat p) (S1_cts p) k1)), (sqrt (ctl_sumsq l (S2_cat p) (S2_cts p) k2)).
    split; [apply sqrt_pos|]. split; [apply sqrt_pos|].
    rewrite <- !Rsqr_pow2, !Rsqr_sqrt by apply sumsq_pos.
    unfold ctl_sumsq, ctl_sum. rewrite !fold_cts2, !fold_cat2, !fold_cts, !fold_cat.
    unfold var1, var2, mu1, mu2, cat_sum, obs_of, Rsqr. cbn [g1 g2 c1 c2 x1 x2 k_c1 k_c2 k_x1 k_x2 k_o o_row s_g1 s_g2 s_y1 s_y2].
    repeat split; lra.
Qed.
End Rows.

Lemma map2_range_nth {A B} (f : nat -> A -> B) l i :
  nth_error (map2 f (range (length l)) l) i = option_map (f i) (nth_error l i).
Proof.
  rewrite nth_error_map2. unfold range. destruct (nth_error l i) as [x|] eqn:E; cbn.
  - assert (H : (i < length l)%nat) by (apply nth_error_Some; congruence).
    rewrite (nth_error_nth' _ 0%nat) by (rewrite seq_length; exact H). rewrite seq_nth by exact H. reflexivity.
  - destruct (nth_error (seq 0 (length l)) i); reflexivity.
Qed.

Section Run.
Variables nk : nat.
Variable cm : nat -> nat -> nat.
Variable cs : nat -> nat.
Variable p : par.
Hypothesis sh : shapes_ok p.

Lemma run_ctl g dm ds fuel jd sd :
  let ncat := length (A1_cat p) in let ncts := length (A1_cts p) in
  simulate_ctl nk cm cs p ncat ncts g dm ds fuel = Ok (jd, sd) ->
  exists jd0 sd0, simulate nk cm cs (A1 p) (A2 p) (S1 p) (S2 p) g fuel = Ok (jd0, sd0) /\
    with_controls p ncat ncts dm jd jd0 /\ with_controls p ncat ncts ds sd sd0.
Proof.
  intros ncat ncts. unfold simulate_ctl.
  destruct (simulate nk cm cs (A1 p) (A2 p) (S1 p) (S2 p) g fuel) as [[jd0 sd0]|e]; [|discriminate].
  cbn [bind]. intros [= <- <-]. exists jd0, sd0. split; [reflexivity|].
  assert (G : forall d rows0, with_controls p ncat ncts d (map2 (add_controls p ncat ncts d) (range (length rows0)) rows0) rows0).
  { intros d rows0. split.
    - rewrite length_map2; unfold range; now rewrite seq_length.
    - intros i r o Hr Ho. rewrite map2_range_nth, Ho in Hr. cbn in Hr. injection Hr as <-.
      split; [apply add_same|]. split; [now apply add_records|]. exact (add_adds p ncat ncts sh eq_refl eq_refl d i o). }
  split; apply G.
Qed.
End Run.

(* ---- parameters ---------------------------------------------------------------- *)

Lemma sumn_shift n (v : nat -> R) a b : sumn n (fun i => a + v i - b) = INR n * (a - b) + sumn n v.
Proof.
  induction n as [|n IH]; [rewrite !sumn_0; simpl; lra|]. rewrite S_INR, !sumn_S, IH. lra.
Qed.

Lemma mean_of_shift n (v : nat -> R) a : (0 < n)%nat -> mean_of n (fun i => a + v i - mean_of n v) = a.
Proof.
  intros H. unfold mean_of at 1. rewrite sumn_shift. unfold mean_of.
  assert (INR n <> 0) by (apply not_0_INR; lia). field. assumption.
Qed.

Lemma var_same nl n A1 A : firm_type_variation nl n A1 A1 = Ok A ->
  forall l i, (l < nl)%nat -> (i < n)%nat -> A l i = A1 l i.
Proof.
  unfold firm_type_variation. destruct (nl =? n)%nat; [intros [= <-] l i _ _; lra|].
  destruct (nl =? 1)%nat; [intros [= <-] l i _ _; lra|].
  destruct (Nat.eqb_spec n 1); [|discriminate]. intros [= <-] l i _ Hi. replace i with 0%nat by lia. lra.
Qed.

Section Cat.
Variables (nl : nat) (c : scol) (d : four mat) (q : four catpar).
Hypothesis E : gen_cat nl c d = Ok q.

Lemma cat_first : fA1 q = cat_arr c (fA1 d) /\ fS1 q = cat_arr c (fS1 d) /\
  fS2 q = (if sc_S c then fS1 q else cat_arr c (fS2 d)).
Proof.
  revert E. unfold gen_cat. destruct (if sc_var c then _ else _) as [a2|e]; [|discriminate].
  cbn [bind]. intros [= <-]. now cbn.
Qed.
Lemma cat_second : (if sc_var c then cat_variation nl c (fA1 q) (if sc_A c then fA1 q else cat_arr c (fA2 d)) = Ok (fA2 q)
                    else fA2 q = (if sc_A c then fA1 q else cat_arr c (fA2 d))).
Proof.
  revert E. unfold gen_cat. destruct (sc_var c).
  - destruct (cat_variation _ _ _ _) as [a2|e] eqn:V; [|discriminate]. cbn [bind]. intros [= <-]. exact V.
  - cbn [bind]. intros [= <-]. reflexivity.
Qed.

Lemma cat_interacts : interacts_cat (fA1 q) = sc_wi c /\ interacts_cat (fA2 q) = sc_wi c /\
  interacts_cat (fS1 q) = sc_wi c /\ interacts_cat (fS2 q) = sc_wi c.
Proof.
  destruct cat_first as (H1 & H2 & H3). pose proof cat_second as H4.
  assert (K : forall m, interacts_cat (cat_arr c m) = sc_wi c) by (intros m; unfold cat_arr; now destruct (sc_wi c)).
  assert (B1 : interacts_cat (fA1 q) = sc_wi c) by (rewrite H1; apply K).
  assert (B2 : interacts_cat (fS1 q) = sc_wi c) by (rewrite H2; apply K).
  split; [exact B1|]. split; [|split; [exact B2|rewrite H3; destruct (sc_S c); [exact B2|apply K]]].
  assert (B3 : interacts_cat (if sc_A c then fA1 q else cat_arr c (fA2 d)) = sc_wi c) by (destruct (sc_A c); [exact B1|apply K]).
  destruct (sc_var c); [|now rewrite H4].
  revert H4. unfold cat_variation. destruct (fA1 q) as [m1|v1], (if sc_A c then _ else _) as [m2|v2]; try discriminate; cbn in B1.
  - destruct (firm_type_variation _ _ _ _); [|discriminate]. cbn [bind]. intros [= <-]. exact B1.
  - intros [= <-]. exact B1.
Qed.

Lemma cat_stat_S : sc_S c = true -> fS2 q = fS1 q.
Proof. intros H. destruct cat_first as (_ & _ & H3). now rewrite H in H3. Qed.

Lemma cat_stat_A : sc_A c = true -> forall l i, (l < nl)%nat -> (i < sc_n c)%nat -> cat_at l i (fA2 q) = cat_at l i (fA1 q).
Proof.
  intros H l i Hl Hi. pose proof cat_second as H2. rewrite H in H2. destruct (sc_var c); [|now rewrite H2].
  revert H2. unfold cat_variation. destruct (fA1 q) as [m1|v1].
  - destruct (firm_type_variation nl (sc_n c) m1 m1) as [m|e] eqn:V; [|discriminate]. cbn [bind]. intros [= <-].
    cbn. now apply (var_same _ _ _ _ V).
  - intros [= <-]. cbn. lra.
Qed.

Lemma cat_free : sc_A c = false -> sc_var c = false -> forall l i,
  cat_at l i (fA2 q) = fA2 d (if sc_wi c then l else 0%nat) i.
Proof.
  intros H1 H2 l i. pose proof cat_second as H3. rewrite H1, H2 in H3. rewrite H3. unfold cat_arr.
  now destruct (sc_wi c).
Qed.

Lemma cat_vary : sc_var c = true -> sc_wi c = false -> (0 < sc_n c)%nat ->
  cat_same_variation nl (sc_n c) (fA1 q) (fA2 q) /\
  (sc_A c = false -> cat_mean (sc_n c) (fA2 q) = sumn (sc_n c) (fA2 d 0%nat) / INR (sc_n c)).
Proof.
  intros H1 H2 Hn. pose proof cat_second as H3. rewrite H1 in H3. destruct cat_first as (F & _).
  revert H3. rewrite F. unfold cat_arr. rewrite H2. cbn [cat_variation].
  assert (S : exists v2, (if sc_A c then Shared (fA1 d 0%nat) else Shared (fA2 d 0%nat)) = Shared v2 /\
              (sc_A c = false -> v2 = fA2 d 0%nat)).
  { destruct (sc_A c); eexists; (split; [reflexivity|]); [discriminate|reflexivity]. }
  destruct S as (v2 & -> & Hv). intros [= <-]. split.
  - intros l i i' _ _ _. cbn. lra.
  - intros HA. rewrite <- (Hv HA). unfold cat_mean. cbn. exact (mean_of_shift (sc_n c) (fA1 d 0%nat) (mean_of (sc_n c) v2) Hn).
Qed.

Lemma cat_one : nl = 1%nat -> sc_var c = true -> cat_same_variation nl (sc_n c) (fA1 q) (fA2 q).
Proof.
  intros H0 H1 l i i' Hl Hi Hi'. pose proof cat_second as H3. rewrite H1, H0 in H3. rewrite H0 in Hl.
  revert H3. unfold cat_variation. destruct (fA1 q) as [m1|v1], (if sc_A c then _ else _) as [m2|v2]; try discriminate.
  - destruct (firm_type_variation 1 (sc_n c) m1 m2) as [m|e] eqn:V; [|discriminate]. cbn [bind]. intros [= <-].
    cbn. rewrite !(variation_one _ _ _ _ V) by assumption. lra.
  - intros [= <-]. cbn. lra.
Qed.
End Cat.

Lemma cat_square n c d q : gen_cat n c d = Ok q -> sc_n c = n -> sc_wi c = true -> sc_A c = false -> sc_var c = true ->
  (cat_same_variation n n (fA1 q) (fA2 q) <->
   forall l l', (l < n)%nat -> (l' < n)%nat ->
     row_mean n (fA2 d) l - row_mean n (fA1 d) l = row_mean n (fA2 d) l' - row_mean n (fA1 d) l').
Proof.
  intros E Hn Hw HA Hv. pose proof (cat_second _ _ _ _ E) as H3. rewrite Hv, HA in H3.
  destruct (cat_first _ _ _ _ E) as (F & _). rewrite F in H3 |- *. unfold cat_arr in H3 |- *. rewrite Hw in H3 |- *.
  cbn [cat_variation] in H3. rewrite Hn in H3.
  destruct (firm_type_variation n n (fA1 d) (fA2 d)) as [m|e] eqn:V; [|discriminate]. cbn [bind] in H3. injection H3 as <-.
  exact (variation_square n (fA1 d) (fA2 d) m V).
Qed.

Lemma cat_err nl c d e : gen_cat nl c d = Err e -> e = ValueError.
Proof.
  unfold gen_cat. destruct (sc_var c); cbn [bind]; [|discriminate].
  unfold cat_variation. destruct (cat_arr c (fA1 d)), (if sc_A c then _ else _); cbn [bind]; try (intros [= <-]; reflexivity); try discriminate.
  unfold firm_type_variation. destruct (nl =? sc_n c)%nat; [discriminate|]. destruct (nl =? 1)%nat; [discriminate|].
  destruct (sc_n c =? 1)%nat; [discriminate|]. cbn. now intros [= <-].
Qed.
Lemma cat_refused nl c d : sc_wi c = true -> sc_var c = true -> nl <> sc_n c -> (2 <= nl)%nat -> (2 <= sc_n c)%nat ->
  gen_cat nl c d = Err ValueError.
Proof.
  intros H1 H2 H3 H4 H5. unfold gen_cat, cat_arr. rewrite H1, H2. destruct (sc_A c); cbn [cat_variation];
    rewrite variation_error by assumption; reflexivity.
Qed.

Section Cts.
Variables (nl : nat) (c : scol) (d : four (nat -> R)).
Let q := gen_cts nl c d.

Lemma cts_interacts : interacts_cts (fA1 q) = sc_wi c /\ interacts_cts (fA2 q) = sc_wi c /\
  interacts_cts (fS1 q) = sc_wi c /\ interacts_cts (fS2 q) = sc_wi c.
Proof.
  unfold q, gen_cts, cts_arr. cbn. destruct (sc_wi c), (sc_A c), (sc_S c), (sc_var c); cbn; auto.
Qed.
Lemma cts_stat_S : sc_S c = true -> fS2 q = fS1 q.
Proof. intros H. unfold q, gen_cts. cbn. now rewrite H. Qed.
Lemma cts_stat_A : sc_A c = true -> forall l, cts_sd l (fA2 q) = cts_sd l (fA1 q).
Proof.
  intros H l. unfold q, gen_cts. cbn. rewrite H. unfold cts_arr. destruct (sc_var c), (sc_wi c); cbn; lra.
Qed.
Lemma cts_free : sc_A c = false -> sc_var c = false -> forall l,
  cts_sd l (fA2 q) = fA2 d (if sc_wi c then l else 0%nat).
Proof.
  intros H1 H2 l. unfold q, gen_cts. cbn. rewrite H1, H2. unfold cts_arr. now destruct (sc_wi c).
Qed.
Lemma cts_vary : sc_var c = true -> cts_same_variation nl (fA1 q) (fA2 q) /\
  (sc_A c = false -> (0 < nl)%nat -> sc_wi c = true ->
   sumn nl (fun l => cts_sd l (fA2 q)) / INR nl = sumn nl (fA2 d) / INR nl).
Proof.
  intros H1. unfold q, gen_cts, cts_arr. cbn. rewrite H1. split.
  - intros l l' _ _. destruct (sc_A c), (sc_wi c); cbn; lra.
  - intros H2 Hn H3. rewrite H2, H3. cbn. exact (mean_of_shift nl (fA1 d) (mean_of nl (fA2 d)) Hn).
Qed.
End Cts.

Section Gen.
Variable argsort : list R -> list nat.
Variable sort : list R -> list R.
Variables nl nk : nat.
Variables cats ctss : list scol.
Variables (o : topts) (a : four mat) (q1 q0 : mat) (dc : nat -> four mat) (dx : nat -> four (nat -> R)).
Let gen := gen_params argsort sort nl nk cats ctss o a q1 q0 dc dx.

Lemma gen_inv p : gen = Ok p ->
  (shapes_ok p /\ length (A1_cat p) = length cats /\ length (A1_cts p) = length ctss) /\
  (forall j c, nth_error cats j = Some c -> exists q, gen_cat nl c (dc j) = Ok q /\ cat_col p j (fA1 q) (fA2 q) (fS1 q) (fS2 q)) /\
  (forall j c, nth_error ctss j = Some c -> let q := gen_cts nl c (dx j) in cts_col p j (fA1 q) (fA2 q) (fS1 q) (fS2 q)) /\
  finish argsort sort nl nk (t_strict o) (t_A o) (t_S o) (t_var o) (fA1 a) (fA2 a) (fS1 a) (fS2 a)
    = Ok (A1 p, A2 p, S1 p, S2 p).
Proof.
  unfold gen, gen_params. destruct (traverse _ (enumerate cats)) as [cs|e] eqn:T; [|discriminate]. cbn [bind].
  destruct (finish argsort sort nl nk (t_strict o) (t_A o) (t_S o) (t_var o) (fA1 a) (fA2 a) (fS1 a) (fS2 a))
    as [[[[b1 b2] t1] t2]|e]; [|discriminate].
  cbn [bind]. intros [= <-]. apply traverse_nth in T. destruct T as [L T]. rewrite length_enumerate in L.
  split; [|split; [|split]].
  - unfold shapes_ok. cbn. rewrite !map_length, length_enumerate. tauto.
  - intros j c Hj. destruct (T j (j, c)) as (q & Hq & Gq); [now rewrite nth_error_enumerate, Hj|].
    exists q. split; [exact Gq|]. unfold cat_col. cbn. repeat split; now apply map_nth_error.
  - intros j c Hj. set (q := gen_cts nl c (dx j)). cbv zeta. unfold cts_col. cbn [A1_cts A2_cts S1_cts S2_cts].
    assert (X : nth_error (map (fun jc => gen_cts nl (snd jc) (dx (fst jc))) (enumerate ctss)) j = Some q).
    { rewrite nth_error_map, nth_error_enumerate, Hj. reflexivity. }
    clearbody q. repeat split; now apply map_nth_error.
  - reflexivity.
Qed.

Lemma gen_refused j c : nth_error cats j = Some c -> sc_wi c = true -> sc_var c = true ->
  nl <> sc_n c -> (2 <= nl)%nat -> (2 <= sc_n c)%nat -> gen = Err ValueError.
Proof.
  intros Hj H1 H2 H3 H4 H5. unfold gen, gen_params.
  assert (X : traverse (fun jc => gen_cat nl (snd jc) (dc (fst jc))) (enumerate cats) = Err ValueError).
  { assert (I : In (j, c) (enumerate cats)).
    { apply nth_error_In with (n := j). now rewrite nth_error_enumerate, Hj. }
    induction (enumerate cats) as [|jc l IH]; [destruct I|]. cbn [traverse]. destruct I as [->|I].
    - cbn [fst snd]. now rewrite cat_refused.
    - destruct (gen_cat nl (snd jc) (dc (fst jc))) as [q|e] eqn:G; cbn [bind]; [|f_equal; exact (cat_err _ _ _ _ G)].
      now rewrite (IH I). }
  now rewrite X.
Qed.
End Gen.
