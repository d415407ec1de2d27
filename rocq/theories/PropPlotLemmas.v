(* Lemmas about the plot of the proportions of worker types. *)
From Verif Require Import Base BaseLemmas UtilModel UtilSpec BLMModel BLMSpec BLMSortLemmas BLMRealModel BLMRunSpec BLMRealLemmas
  PlotSpec PlotPropLemmas PropPlotModel PropPlotSpec.
Local Open Scope res_scope.
Local Open Scope R_scope.

Lemma Forall2_len' {A B} (P : A -> B -> Prop) l m : Forall2 P l m -> length l = length m.
Proof. induction 1; cbn; congruence. Qed.

Section P.
Variable argsort : list R -> list nat.
Hypothesis Ha : forall l, is_argsort l (argsort l).
Variables (pp : period) (nl nk : nat) (sub : subset_kind) (per : rperiod).
Hypothesis Hper : per <> ROther.

Definition tp (m : par) : mat :=
  match type_proportions nk sub per (NNm m) (NNs m) (pk1 m) (pk0 m) with Ok x => x | Err _ => fun _ _ => 0 end.
Lemma tp_ok m : type_proportions nk sub per (NNm m) (NNs m) (pk1 m) (pk0 m) = Ok (tp m).
Proof. unfold tp, type_proportions. destruct sub, per; try reflexivity; congruence. Qed.

Lemma period1_equiv s t m p k l : relabelling nk t -> relabelled nl nk s t m p -> (k < nk)%nat -> (l < nl)%nat ->
  pk1_period1 nk (NNm p) (pk1 p) k l = pk1_period1 nk (NNm m) (pk1 m) (t k) (s l) /\
  row_sums nk (NNm p) k = row_sums nk (NNm m) (t k).
Proof.
  intros Rt H Hk Hl.
  assert (E : row_sums nk (NNm p) k = row_sums nk (NNm m) (t k)).
  { unfold row_sums. rewrite <- (relabelling_sumn nk t (fun b => NNm m (t k) b) Rt). apply sumn_ext. intros b Hb.
    now apply (r_NNm _ _ _ _ _ _ H). }
  split; [|exact E]. unfold pk1_period1. rewrite E. f_equal.
  rewrite <- (relabelling_sumn nk t (fun b => pr nk (NNm m) (pk1 m) (t k) b (s l)) Rt). apply sumn_ext. intros b Hb.
  unfold pr, reshape3. rewrite (r_NNm _ _ _ _ _ _ H k b Hk Hb).
  replace (k * nk + b)%nat with (b + nk * k)%nat by lia. rewrite (r_pk1 _ _ _ _ _ _ H b k l Hb Hk Hl).
  f_equal. f_equal. lia.
Qed.
Lemma period2_equiv s t m p k l : relabelling nk t -> relabelled nl nk s t m p -> (k < nk)%nat -> (l < nl)%nat ->
  pk1_period2 nk (NNm p) (pk1 p) k l = pk1_period2 nk (NNm m) (pk1 m) (t k) (s l) /\
  col_sums nk (NNm p) k = col_sums nk (NNm m) (t k).
Proof.
  intros Rt H Hk Hl.
  assert (E : col_sums nk (NNm p) k = col_sums nk (NNm m) (t k)).
  { unfold col_sums. rewrite <- (relabelling_sumn nk t (fun b => NNm m b (t k)) Rt). apply sumn_ext. intros b Hb.
    now apply (r_NNm _ _ _ _ _ _ H). }
  split; [|exact E]. unfold pk1_period2. rewrite E. f_equal.
  rewrite <- (relabelling_sumn nk t (fun b => pr nk (NNm m) (pk1 m) b (t k) (s l)) Rt). apply sumn_ext. intros b Hb.
  unfold pr, reshape3. rewrite (r_NNm _ _ _ _ _ _ H b k Hb Hk).
  replace (b * nk + k)%nat with (k + nk * b)%nat by lia. rewrite (r_pk1 _ _ _ _ _ _ H k b l Hk Hb Hl).
  f_equal. f_equal. lia.
Qed.
Lemma tp_equiv s t m p k l : relabelling nk t -> relabelled nl nk s t m p -> (k < nk)%nat -> (l < nl)%nat ->
  tp p k l = tp m (t k) (s l).
Proof.
  intros Rt H Hk Hl.
  destruct (period1_equiv s t m p k l Rt H Hk Hl) as [E1 R1].
  destruct (period2_equiv s t m p k l Rt H Hk Hl) as [E2 R2].
  pose proof (r_pk0 _ _ _ _ _ _ H k l Hk Hl) as E0. pose proof (r_NNs _ _ _ _ _ _ H k Hk) as ES.
  unfold tp, type_proportions, joint. destruct sub, per; cbv beta iota; rewrite ?E1, ?E2, ?R1, ?R2, ?E0, ?ES; try reflexivity.
Qed.

Lemma sort_ranks m : let p := sort_parameters argsort pp nl nk true false m in
  exists s t, ranks pp nl nk (effs m) s t /\ relabelled nl nk s t m p.
Proof.
  intros p. destruct (sort_spec argsort Ha pp nl nk true false m) as (s & t & Rs & Rt & _ & Hr & Hw & Hf).
  fold p in Hr, Hw, Hf. pose proof (r_A _ _ _ _ _ _ Hr) as HA.
  exists s, t. split; [|exact Hr]. split; [exact Rs|]. split; [exact Rt|]. cbn [effs fst snd]. split.
  - intros l l' L. rewrite <- (worker_mean_eq pp nl nk s t (A1 m) (A2 m) (A1 p) (A2 p) l Rt HA) by lia.
    rewrite <- (worker_mean_eq pp nl nk s t (A1 m) (A2 m) (A1 p) (A2 p) l' Rt HA) by lia. exact (Hw l l' L).
  - intros k k' L. rewrite <- (firm_mean_eq pp nl nk s t (A1 m) (A2 m) (A1 p) (A2 p) k Rs HA) by lia.
    rewrite <- (firm_mean_eq pp nl nk s t (A1 m) (A2 m) (A1 p) (A2 p) k' Rs HA) by lia. exact (Hf eq_refl k k' L).
Qed.

(* the plot in terms of ranks *)
Definition mean (models : list par) rs (k l : nat) : R :=
  rsum (map2 (fun m (r : (nat -> nat) * (nat -> nat)) => tp m (snd r k) (fst r l)) models rs) / INR (length models).
Definition bottom models rs (k l : nat) : R := sumn l (mean models rs k).
Lemma plot_is models : exists rs,
  Forall2 (fun m r => ranks pp nl nk (effs m) (fst r) (snd r)) models rs /\
  plot_type_proportions argsort pp nl nk sub per models
  = Ok (map (fun l => map (fun k => (bottom models rs k l, mean models rs k l)) (range nk)) (range nl)).
Proof.
  set (srt := sort_parameters argsort pp nl nk true false).
  assert (C : exists rs, Forall2 (fun m r => ranks pp nl nk (effs m) (fst r) (snd r)) models rs /\
    forall k l, (k < nk)%nat -> (l < nl)%nat ->
      map (fun m => tp (srt m) k l) models = map2 (fun m (r : (nat -> nat) * (nat -> nat)) => tp m (snd r k) (fst r l)) models rs).
  { induction models as [|m ms (rs & F & IH)]; [exists []; split; [constructor|reflexivity]|].
    destruct (sort_ranks m) as (s & t & Hr & Hl). exists ((s, t) :: rs). split; [now constructor|].
    intros k l Hk Hl'. cbn [map map2 fst snd]. rewrite IH by assumption. f_equal.
    apply tp_equiv; try assumption. exact (proj1 (proj2 Hr)). }
  destruct C as (rs & F & C). exists rs. split; [exact F|].
  unfold plot_type_proportions. rewrite (traverse_ok _ (fun m => tp (srt m))) by (intros m _; apply tp_ok).
  cbn [bind]. cbv zeta. f_equal. apply map_ext_in. intros l Il. apply in_seq in Il.
  apply map_ext_in. intros k Ik. apply in_seq in Ik.
  assert (E : forall l', (l' < nl)%nat ->
    rsum (map (fun pm : mat => pm k l') (map (fun m => tp (srt m)) models)) / INR (length models) = mean models rs k l').
  { intros l' Hl'. unfold mean. rewrite map_map, C by lia. reflexivity. }
  rewrite E by lia. f_equal. unfold bottom. destruct l as [|l']; [reflexivity|].
  apply sumn_ext. intros i Hi. apply E. lia.
Qed.

Lemma map2_ext2 {A B} (P : A -> B -> Prop) (f g : A -> B -> R) l m : Forall2 P l m ->
  (forall a b, In a l -> P a b -> f a b = g a b) -> map2 f l m = map2 g l m.
Proof.
  induction 1 as [|a b l m H F IH]; intros E; [reflexivity|]. cbn [map2]. rewrite (E a b (or_introl eq_refl) H).
  f_equal. apply IH. intros x y Hx. apply E. now right.
Qed.

Lemma shown_lemma share models : models <> [] ->
  (forall m k l, In m models -> (k < nk)%nat -> (l < nl)%nat -> tp m k l = share m k l) ->
  exists rows, plot_type_proportions argsort pp nl nk sub per models = Ok rows /\
    shows_shares pp nl nk share models rows.
Proof.
  intros Hm Hs. destruct (plot_is models) as (rs & F & ->). eexists. split; [reflexivity|].
  exists rs. split; [exact F|]. split; [rewrite map_length; apply seq_length|]. split.
  { apply Forall_forall. intros row Hr. apply in_map_iff in Hr as (l & <- & _). rewrite map_length. apply seq_length. }
  intros l k row b h Er Eh. apply at_range in Er as [Ll ->]. apply at_range in Eh as [Lk Eh]. injection Eh as _ ->.
  unfold mean. field_simplify_eq.
  2:{ apply not_0_INR. destruct models; [congruence|discriminate]. }
  f_equal. apply (map2_ext2 _ _ _ _ _ F). intros m r Im (Rs & Rt & _). apply Hs; [exact Im| |];
    [apply (relabelling_lt nk _ k Rt Lk)|apply (relabelling_lt nl _ l Rs Ll)].
Qed.

Lemma stack_lemma models : models <> [] ->
  (forall m, In m models -> counts_ok nk (NNm m) (NNs m) /\ props_ok nl nk (pk1 m) (pk0 m)) ->
  exists rows, plot_type_proportions argsort pp nl nk sub per models = Ok rows /\ stacked_to_one nl nk rows.
Proof.
  intros Hm Hc. destruct (plot_is models) as (rs & F & ->). eexists. split; [reflexivity|].
  exists (bottom models rs), (mean models rs). split; [reflexivity|]. intros k Hk.
  split; [reflexivity|].
  assert (P : forall m, In m models -> forall k, (k < nk)%nat -> prob_vec nl (tp m k)).
  { intros m Im k' Hk'. destruct (Hc m Im) as [C1 C2].
    destruct (proportions_ok nl nk _ _ _ _ C1 C2 sub per Hper) as (pm & E & H). rewrite tp_ok in E. injection E as <-. now apply H. }
  assert (N : 0 < INR (length models)) by (apply lt_0_INR; destruct models; [congruence|cbn; lia]).
  split.
  - assert (S : sumn nl (fun l => rsum (map2 (fun m (r : (nat -> nat) * (nat -> nat)) => tp m (snd r k) (fst r l)) models rs))
               = INR (length models)).
    { clear Hm Hc N. induction F as [|m r ms rs (Rs & Rt & _) F IH].
      - unfold sumn. cbn. rewrite rsum_map_const. lra.
      - cbn [map2 rsum length]. rewrite sumn_plus, IH by (intros x Hx; apply P; now right).
        rewrite (relabelling_sumn nl (fst r) (fun l => tp m (snd r k) l) Rs).
        destruct (P m (or_introl eq_refl) (snd r k) (relabelling_lt nk _ k Rt Hk)) as [_ Q].
        change (sumn nl (fun l => tp m (snd r k) l)) with (sumn nl (tp m (snd r k))). rewrite Q, S_INR. lra. }
    unfold mean, Rdiv. rewrite sumn_scal_r, S. field. lra.
  - intros l Hl. split; [|unfold bottom; apply sumn_S].
    unfold mean. apply Rmult_le_pos; [|left; now apply Rinv_0_lt_compat].
    clear Hm Hc N. induction F as [|m r ms rs (Rs & Rt & _) F IH]; [cbn; lra|]. cbn [map2 rsum].
    apply Rplus_le_le_0_compat; [|apply IH; intros x Hx; apply P; now right].
    apply (P m (or_introl eq_refl) (snd r k) (relabelling_lt nk _ k Rt Hk)). exact (relabelling_lt nl _ l Rs Hl).
Qed.

(* names *)
Lemma ranks_renamed u v m m' s t s' t' : distinct_types pp nl nk (effs m) -> relabelling nl u -> relabelling nk v ->
  relabelled nl nk u v m m' -> ranks pp nl nk (effs m) s t -> ranks pp nl nk (effs m') s' t' ->
  (forall l, (l < nl)%nat -> s l = u (s' l)) /\ (forall k, (k < nk)%nat -> t k = v (t' k)).
Proof.
  intros [Dw Df] Ru Rv H (Rs & Rt & Ws & Fs) (Rs' & Rt' & Ws' & Fs').
  pose proof (r_A _ _ _ _ _ _ H) as He. cbn [effs fst snd] in *.
  pose proof (fun i => relabelling_lt nl s' i Rs') as Ls. pose proof (fun i => relabelling_lt nk t' i Rt') as Lt.
  split.
  - intros l Hl. apply (same_ranks nl (worker_mean pp nk (A1 m) (A2 m)) s (fun i => u (s' i)) Rs (relabelling_comp _ _ _ Ru Rs') Dw Ws);
      [|exact Hl]. intros i j L.
    rewrite <- (worker_mean_eq pp nl nk u v _ _ _ _ (s' i) Rv He) by (apply Ls; lia).
    rewrite <- (worker_mean_eq pp nl nk u v _ _ _ _ (s' j) Rv He) by (apply Ls; lia). now apply Ws'.
  - intros k Hk. apply (same_ranks nk (firm_mean pp nl (A1 m) (A2 m)) t (fun i => v (t' i)) Rt (relabelling_comp _ _ _ Rv Rt') Df Fs);
      [|exact Hk]. intros i j L.
    rewrite <- (firm_mean_eq pp nl nk u v _ _ _ _ (t' i) Ru He) by (apply Lt; lia).
    rewrite <- (firm_mean_eq pp nl nk u v _ _ _ _ (t' j) Ru He) by (apply Lt; lia). now apply Fs'.
Qed.
Lemma plabels_lemma models models' : Forall (distinct_types pp nl nk) (map effs models) ->
  Forall2 (same_model nl nk) models models' ->
  plot_type_proportions argsort pp nl nk sub per models' = plot_type_proportions argsort pp nl nk sub per models.
Proof.
  intros D M. destruct (plot_is models) as (rs & F & ->). destruct (plot_is models') as (rs' & F' & ->).
  assert (E : forall k l, (k < nk)%nat -> (l < nl)%nat -> mean models' rs' k l = mean models rs k l).
  { intros k l Hk Hl. unfold mean. rewrite <- (Forall2_len' _ _ _ M). f_equal. f_equal.
    revert rs rs' F F' D. induction M as [|m m' ms ms' (u & v & Ru & Rv & H) M IH]; intros rs rs' F F' D.
    - reflexivity.
    - inversion F as [|? [s t] ? rs0 Hr F0]; subst. inversion F' as [|? [s' t'] ? rs0' Hr' F0']; subst.
      inversion D as [|? ? D0 D1]; subst. cbn [map2 fst snd] in *. f_equal; [|now apply IH].
      destruct (ranks_renamed u v m m' s t s' t' D0 Ru Rv H Hr Hr') as [Es Et].
      rewrite (Es l Hl), (Et k Hk). apply tp_equiv; try assumption.
      + exact (relabelling_lt nk t' k (proj1 (proj2 Hr')) Hk).
      + exact (relabelling_lt nl s' l (proj1 Hr') Hl). }
  f_equal. apply map_ext_in. intros l Il. apply in_seq in Il. apply map_ext_in. intros k Ik. apply in_seq in Ik.
  rewrite E by lia. f_equal. unfold bottom. apply sumn_ext. intros i Hi. apply E; lia.
Qed.
End P.

(* shares *)
Lemma period1_arriving nk NN pk k l : symmetric nk NN -> (k < nk)%nat ->
  pk1_period1 nk NN pk k l = type_arriving nk NN pk k l / sumn nk (fun a => NN a k).
Proof.
  intros H Hk. unfold pk1_period1, row_sums, type_arriving, type_moves, prop_of. f_equal; apply sumn_ext; intros b Hb.
  - unfold pr, reshape3. rewrite (H k b Hk Hb). f_equal. f_equal. lia.
  - now apply H.
Qed.
Lemma period2_leaving nk NN pk k l : symmetric nk NN -> (k < nk)%nat ->
  pk1_period2 nk NN pk k l = type_leaving nk NN pk k l / sumn nk (fun b => NN k b).
Proof.
  intros H Hk. unfold pk1_period2, col_sums, type_leaving, type_moves, prop_of. f_equal; apply sumn_ext; intros b Hb.
  - unfold pr, reshape3. rewrite (H b k Hb Hk). f_equal. f_equal. lia.
  - now apply H.
Qed.
Section Q.
Variable argsort : list R -> list nat.
Hypothesis Ha : forall l, is_argsort l (argsort l).
Variables (pp : period) (nl nk : nat) (models : list par).
Hypothesis Hm : models <> [].
Lemma stayers_shown per : per <> ROther -> exists rows,
  plot_type_proportions argsort pp nl nk SStayers per models = Ok rows /\
  shows_shares pp nl nk stayer_share models rows.
Proof.
  intros Hp. apply (shown_lemma argsort Ha pp nl nk SStayers per Hp stayer_share models Hm).
  intros m k l _ _ _. unfold tp, type_proportions, stayer_share. destruct per; try reflexivity; [field|congruence].
Qed.
Hypothesis Hs : forall m, In m models -> symmetric nk (NNm m).
Lemma both_shown : exists rows,
  plot_type_proportions argsort pp nl nk SMovers RAll models = Ok rows /\
  shows_shares pp nl nk (fun m k l => (leaving_share nk m k l + arriving_share nk m k l) / 2) models rows.
Proof.
  apply (shown_lemma argsort Ha pp nl nk SMovers RAll ltac:(discriminate) _ models Hm).
  intros m k l I Hk _. unfold tp, type_proportions, leaving_share, arriving_share.
  rewrite period1_arriving, period2_leaving by auto. lra.
Qed.
Lemma exchanged :
  (exists rows, plot_type_proportions argsort pp nl nk SMovers RFirst models = Ok rows /\
     shows_shares pp nl nk (arriving_share nk) models rows) /\
  (exists rows, plot_type_proportions argsort pp nl nk SMovers RSecond models = Ok rows /\
     shows_shares pp nl nk (leaving_share nk) models rows).
Proof.
  split.
  - apply (shown_lemma argsort Ha pp nl nk SMovers RFirst ltac:(discriminate) _ models Hm).
    intros m k l I Hk _. unfold tp, type_proportions, arriving_share. apply period1_arriving; auto.
  - apply (shown_lemma argsort Ha pp nl nk SMovers RSecond ltac:(discriminate) _ models Hm).
    intros m k l I Hk _. unfold tp, type_proportions, leaving_share. apply period2_leaving; auto.
Qed.
Hypothesis Hc : forall m, In m models -> counts_ok nk (NNm m) (NNs m).
Lemma all_first m k l : In m models -> (k < nk)%nat ->
  joint (row_sums nk (NNm m)) (NNs m) (pk1_period1 nk (NNm m) (pk1 m)) (pk0 m) k l = second_share nk m k l.
Proof.
  intros I Hk. unfold joint, second_share. rewrite period1_arriving by auto.
  assert (E : row_sums nk (NNm m) k = sumn nk (fun a => NNm m a k)).
  { apply sumn_ext. intros b Hb. now apply (Hs m I). }
  destruct (Hc m I) as (_ & _ & P & _ & _). specialize (P k Hk). rewrite E. f_equal. f_equal. field. lra.
Qed.
Lemma all_second m k l : In m models -> (k < nk)%nat ->
  joint (col_sums nk (NNm m)) (NNs m) (pk1_period2 nk (NNm m) (pk1 m)) (pk0 m) k l = first_share nk m k l.
Proof.
  intros I Hk. unfold joint, first_share. rewrite period2_leaving by auto.
  assert (E : col_sums nk (NNm m) k = sumn nk (fun b => NNm m k b)).
  { apply sumn_ext. intros b Hb. now apply (Hs m I). }
  destruct (Hc m I) as (_ & P & _ & _ & _). specialize (P k Hk). rewrite E. f_equal. f_equal. field. lra.
Qed.
Lemma all_shown : exists rows,
  plot_type_proportions argsort pp nl nk SAll RAll models = Ok rows /\
  shows_shares pp nl nk (fun m k l => (first_share nk m k l + second_share nk m k l) / 2) models rows.
Proof.
  apply (shown_lemma argsort Ha pp nl nk SAll RAll ltac:(discriminate) _ models Hm).
  intros m k l I Hk _. unfold tp, type_proportions. rewrite all_first, all_second by assumption. lra.
Qed.
Lemma all_exchanged :
  (exists rows, plot_type_proportions argsort pp nl nk SAll RFirst models = Ok rows /\
     shows_shares pp nl nk (second_share nk) models rows) /\
  (exists rows, plot_type_proportions argsort pp nl nk SAll RSecond models = Ok rows /\
     shows_shares pp nl nk (first_share nk) models rows).
Proof.
  split.
  - apply (shown_lemma argsort Ha pp nl nk SAll RFirst ltac:(discriminate) _ models Hm).
    intros m k l I Hk _. unfold tp, type_proportions. now apply all_first.
  - apply (shown_lemma argsort Ha pp nl nk SAll RSecond ltac:(discriminate) _ models Hm).
    intros m k l I Hk _. unfold tp, type_proportions. now apply all_second.
Qed.
End Q.
