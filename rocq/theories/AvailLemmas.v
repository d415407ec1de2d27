(* Lemmas about the calls that store and use counts. *)
From Verif Require Import Base BLMRealModel AvailModel AvailSpec.

Section Lemmas.
Variables data_m data_s counts_m counts_s : Type.
Variable count_m : data_m -> counts_m.
Variable count_s : data_s -> counts_s.
Variable nl : nat.
Notation call := (call data_m data_s).
Notation obj := (obj data_m counts_m counts_s).
Notation step := (@step data_m data_s counts_m counts_s count_m count_s nl).
Notation after := (@after data_m data_s counts_m counts_s count_m count_s nl).
Notation movers := (@of_movers data_m data_s).
Notation stayers := (@of_stayers data_m data_s).

Lemma after_last k h c : after k (h ++ [c]) = fst (step k c (after k h)).
Proof. unfold AvailModel.after. now rewrite fold_left_app. Qed.

Lemma fit_NNm f (o : obj) : NNm (fit_movers count_m f o)
  = if f_compute f then Some (count_m (f_data f)) else NNm o.
Proof. unfold fit_movers, _fit_movers, fit_forced. destruct (f_force f), (f_end f); reflexivity. Qed.
Lemma fit_NNs f (o : obj) : NNs (fit_movers count_m f o) = NNs o.
Proof. unfold fit_movers, _fit_movers, fit_forced. destruct (f_force f), (f_end f); reflexivity. Qed.
Lemma fit_fitted f (o : obj) : fitted (fit_movers count_m f o) = Some (f_data f).
Proof. unfold fit_movers, _fit_movers, fit_forced. destruct (f_force f), (f_end f); reflexivity. Qed.

Lemma conn_NN (o : obj) : NNm (fst (compute_connectedness o)) = NNm o /\
  NNs (fst (compute_connectedness o)) = NNs o.
Proof. unfold compute_connectedness. destruct (NNm o) eqn:E, (fitted o) eqn:F; cbn; rewrite ?E; split; reflexivity. Qed.

Lemma step_NNm k c o : NNm (fst (step k c o))
  = match movers c with Some (d, true) => Some (count_m d) | _ => NNm o end.
Proof.
  destruct c as [f|f|f|f|f n|d b|s]; cbn [AvailModel.step fst of_movers];
    try (rewrite fit_NNm; now destruct (f_compute f)); try reflexivity.
  unfold fit_movers_cstr_uncstr. destruct n; cbn [fst].
  - rewrite fit_NNm. destruct (1 <? nl); rewrite ?fit_NNm; cbn; rewrite ?fit_NNm; cbn; now destruct (f_compute f).
  - rewrite (proj1 (conn_NN _)), fit_NNm.
    destruct (1 <? nl); rewrite ?fit_NNm; cbn; rewrite ?fit_NNm; cbn; now destruct (f_compute f).
Qed.
Lemma step_NNs k c o : NNs (fst (step k c o))
  = match stayers c with Some (d, true) => Some (count_s d) | _ => NNs o end.
Proof.
  destruct c as [f|f|f|f|f n|d b|s]; cbn [AvailModel.step fst of_stayers]; rewrite ?fit_NNs; try reflexivity.
  unfold fit_movers_cstr_uncstr. destruct n; cbn [fst].
  - rewrite fit_NNs. destruct (1 <? nl); now rewrite ?fit_NNs.
  - rewrite (proj2 (conn_NN _)), fit_NNs. destruct (1 <? nl); now rewrite ?fit_NNs.
Qed.

(* Each count is that of the last data set. *)
Section Kind.
Context {D C : Type}.
Variables (kind : call -> option (D * bool)) (get : obj -> option C) (count : D -> C).
Hypothesis Hstep : forall k c o, get (fst (step k c o)) = match kind c with Some (d, true) => Some (count d) | _ => get o end.
Hypothesis Hnew : get (new) = None.

Lemma kind_last k h d : last_counted kind h d -> get (after k h) = Some (count d).
Proof.
  induction 1 as [h c d E|h c d _ IH N]; rewrite after_last, Hstep.
  - now rewrite E.
  - destruct (kind c) as [[d' [|]]|] eqn:E; [|exact IH..]. now destruct (N d').
Qed.
Lemma kind_never k h : never_counted kind h -> get (after k h) = None.
Proof.
  induction h as [|c h IH] using rev_ind; intros N; [exact Hnew|]. rewrite after_last, Hstep.
  assert (IH' : get (after k h) = None) by (apply IH; intros x d Hx; apply N, in_or_app; now left).
  destruct (kind c) as [[d [|]]|] eqn:E; try exact IH'.
  destruct (N c d); [apply in_or_app; right; now left|exact E].
Qed.
Lemma kind_or h : never_counted kind h \/ exists d, last_counted kind h d.
Proof.
  induction h as [|c h IH] using rev_ind; [left; intros c d []|].
  destruct (kind c) as [[d [|]]|] eqn:E.
  - right. exists d. now constructor.
  - destruct IH as [IH|(d' & IH)].
    + left. intros x d' Hx. apply in_app_or in Hx as [Hx|[<-|[]]]; [now apply IH|congruence].
    + right. exists d'. apply last_before; [exact IH|intros; congruence].
  - destruct IH as [IH|(d' & IH)].
    + left. intros x d' Hx. apply in_app_or in Hx as [Hx|[<-|[]]]; [now apply IH|congruence].
    + right. exists d'. apply last_before; [exact IH|intros; congruence].
Qed.
Lemma kind_counted k h : ~ never_counted kind h -> exists c, get (after k h) = Some c.
Proof. intros N. destruct (kind_or h) as [H|(d & H)]; [contradiction|]. exists (count d). now apply kind_last. Qed.
Lemma kind_iff k h : get (after k h) = None <-> never_counted kind h.
Proof.
  split; [|apply kind_never]. intros E. destruct (kind_or h) as [H|(d & H)]; [exact H|].
  apply (kind_last k) in H. congruence.
Qed.
End Kind.

Notation aNNm k h := (NNm (after k h)).
Notation aNNs k h := (NNs (after k h)).
Lemma counts_stored k h :
  (forall d, last_counted movers h d -> aNNm k h = Some (count_m d)) /\
  (forall d, last_counted stayers h d -> aNNs k h = Some (count_s d)) /\
  (never_counted movers h <-> aNNm k h = None) /\ (never_counted stayers h <-> aNNs k h = None).
Proof.
  split; [|split; [|split]].
  - intros d. exact (kind_last movers _ count_m step_NNm k h d).
  - intros d. exact (kind_last stayers _ count_s step_NNs k h d).
  - symmetry. exact (kind_iff movers _ count_m step_NNm eq_refl k h).
  - symmetry. exact (kind_iff stayers _ count_s step_NNs eq_refl k h).
Qed.

Lemma static_plot h sub :
  (can_plot sub h -> snd (step Static (Plot sub) (after Static h)) = Done) /\
  (~ can_plot sub h -> snd (step Static (Plot sub) (after Static h)) = Told sub).
Proof.
  destruct (counts_stored Static h) as (_ & _ & M & S). cbn [AvailModel.step snd].
  destruct sub; cbn [can_plot plot_static];
    destruct (aNNm Static h) as [x|]; destruct (aNNs Static h) as [y|]; cbn [unpacks]; split; intros H;
    try reflexivity; exfalso; intuition congruence.
Qed.
Lemma dynamic_plot h sub :
  sub <> SStayers \/ (never_counted movers h <-> never_counted stayers h) ->
  (can_plot sub h -> snd (step Dynamic (Plot sub) (after Dynamic h)) = Done) /\
  (~ can_plot sub h -> snd (step Dynamic (Plot sub) (after Dynamic h)) = Told sub).
Proof.
  intros Hs. destruct (counts_stored Dynamic h) as (_ & _ & M & S). cbn [AvailModel.step snd].
  destruct sub; cbn [can_plot plot_dynamic];
    destruct (aNNm Dynamic h) as [x|]; destruct (aNNs Dynamic h) as [y|]; cbn [unpacks]; split; intros H;
    try reflexivity; exfalso; intuition congruence.
Qed.
Lemma dynamic_stayers h :
  (never_counted movers h -> snd (step Dynamic (Plot SStayers) (after Dynamic h)) = Told SStayers) /\
  (~ never_counted movers h -> never_counted stayers h ->
    snd (step Dynamic (Plot SStayers) (after Dynamic h)) = Raises ValueError).
Proof.
  destruct (counts_stored Dynamic h) as (_ & _ & M & S). cbn [AvailModel.step snd plot_dynamic].
  destruct (aNNm Dynamic h) as [x|]; destruct (aNNs Dynamic h) as [y|]; cbn [unpacks]; split; intros H; try intros H';
    try reflexivity; exfalso; intuition congruence.
Qed.

Lemma cstr_step k f o : step k (CstrUncstr f false) o =
  match (if f_compute f then Some (count_m (f_data f)) else NNm o) with
  | Some c => (mkobj (Some c) (NNs o) (Some (f_data f)) (Some (f_data f, c)), Done)
  | None => (fst (step k (CstrUncstr f false) o), Raises AttributeError)
  end.
Proof.
  pose proof (step_NNs k (CstrUncstr f false) o) as Es. cbn [of_stayers] in Es.
  cbn [AvailModel.step] in *. unfold fit_movers_cstr_uncstr in *. cbv zeta in *.
  set (o' := if 1 <? nl then _ else _) in *.
  assert (E2 : NNm o' = NNm o).
  { unfold o'. destruct (1 <? nl); rewrite ?fit_NNm; cbn; rewrite ?fit_NNm; reflexivity. }
  unfold compute_connectedness in *. rewrite fit_fitted, fit_NNm, E2 in *.
  destruct (if f_compute f then _ else _) as [c|] eqn:E; [|reflexivity].
  cbn in Es. now rewrite Es.
Qed.
Lemma fit_conn f (o : obj) : conn (fit_movers count_m f o) = conn o.
Proof. unfold fit_movers, _fit_movers, fit_forced. destruct (f_force f), (f_end f); reflexivity. Qed.
Lemma nan_step k h f : snd (step k (CstrUncstr f true) (after k h)) = Done /\
  conn (after k (h ++ [CstrUncstr f true])) = conn (after k h).
Proof.
  rewrite after_last. split; [reflexivity|]. cbn [AvailModel.step]. unfold fit_movers_cstr_uncstr. cbn [fst].
  rewrite fit_conn. destruct (1 <? nl); now rewrite ?fit_conn.
Qed.
Lemma no_counts k h f : never_counted movers h -> f_compute f = false ->
  snd (step k (CstrUncstr f false) (after k h)) = Raises AttributeError.
Proof.
  intros N E. destruct (counts_stored k h) as (_ & _ & M & _). rewrite cstr_step, E.
  now rewrite (proj1 M N).
Qed.
Lemma conn_counts k h f d :
  (f_compute f = true /\ d = f_data f \/ f_compute f = false /\ last_counted movers h d) ->
  snd (step k (CstrUncstr f false) (after k h)) = Done /\
  conn (after k (h ++ [CstrUncstr f false])) = Some (f_data f, count_m d).
Proof.
  intros H. rewrite after_last, cstr_step. destruct H as [[E ->]|[E L]]; rewrite E; [split; reflexivity|].
  rewrite (proj1 (counts_stored k h) d L). split; reflexivity.
Qed.
End Lemmas.
