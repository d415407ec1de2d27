(* Lemmas about plot_liks_connectedness. *)
From Verif Require Import Base BaseLemmas BLMRunModel BLMRunLemmas BLMRunPropLemmas PlotModel PlotSpec.
From Coq Require Import Permutation.
Local Open Scope res_scope.
Local Open Scope R_scope.

Lemma index_of_in v l : In v l -> exists i, index_of v l = Ok i /\ nth_error l i = Some v.
Proof.
  induction l as [|w l IH]; intros H; [destruct H|]. cbn [index_of].
  assert (R : v <> w -> exists i, (i <- index_of v l ;; Ok (S i)) = Ok i /\ nth_error (w :: l) i = Some v).
  { intros N. destruct H as [->|H]; [congruence|]. destruct (IH H) as (i & E & En). exists (S i). rewrite E. now split. }
  destruct (Req_EM_T (fst v) (fst w)) as [e1|n1].
  - destruct (Req_EM_T (snd v) (snd w)) as [e2|n2].
    + exists 0%nat. split; [reflexivity|]. cbn. f_equal. destruct v, w. cbn in *. congruence.
    + apply R. intros ->. congruence.
  - apply R. intros ->. congruence.
Qed.
Lemma ldel_perm {A} i l (v : A) : nth_error l i = Some v -> Permutation (v :: ldel i l) l.
Proof.
  revert i. induction l as [|w l IH]; intros i H; [destruct i; discriminate|]. destruct i as [|i]; cbn in H.
  - injection H as ->. reflexivity.
  - unfold ldel. cbn [firstn skipn app]. eapply perm_trans; [apply perm_swap|]. constructor. now apply IH.
Qed.
Lemma combine_ldel {A B} i (l : list A) (m : list B) : length l = length m -> combine (ldel i l) (ldel i m) = ldel i (combine l m).
Proof.
  unfold ldel. revert l m. induction i as [|i IH]; intros [|a l] [|b m] E; try discriminate; try reflexivity.
  cbn [firstn skipn app combine]. f_equal. injection E as E. specialize (IH l m E).
  destruct l, m; try discriminate; [now rewrite !firstn_nil|]. exact IH.
Qed.
Lemma combine_maps {A B C} (f : A -> B) (g : A -> C) l b c n :
  combine (map f l ++ repeat b n) (map g l ++ repeat c n) = map (fun a => (f a, g a)) l ++ repeat (b, c) n.
Proof.
  induction l as [|a l IH]; cbn; [|now rewrite IH]. induction n as [|n IH]; cbn; [reflexivity|]. now rewrite IH.
Qed.

Section Lik.
Context {M : Type} (lik1 : M -> R) (liks1 : M -> list R) (connectedness : M -> option R).
Notation point := (point lik1 connectedness).

Lemma plot_liks_lemma models n_best :
  let cands := filter (fun m => match connectedness m with Some _ => true | None => false end) models in
  (0 < n_best <= length models)%nat -> cands <> [] ->
  exists f sc high low, select lik1 liks1 connectedness models n_best = Ok f /\
    plot_liks_connectedness lik1 connectedness f = Ok sc /\
    sc_best sc = point (f_model f) /\
    Permutation (high ++ low) cands /\ length high = Nat.min n_best (length cands) /\
    (forall a b, In a high -> In b low -> lik1 b <= lik1 a) /\
    Permutation (sc_best sc :: sc_high sc) (map point high ++ repeat (0, 0) (n_best - length high)) /\
    sc_low sc = map point low ++ repeat (0, 0) (length models - n_best - length low).
Proof.
  intros cands Hn Hc. destruct (select_spec lik1 liks1 connectedness models n_best) as (_ & _ & H). fold cands in H.
  destruct (H Hn Hc) as (f & high & low & Es & P & L & O & I & _ & H1 & H2 & H3 & H4 & _). clear H.
  set (v := point (f_model f)).
  assert (Ech : combine (f_liks_high f) (f_connectedness_high f) = map point high ++ repeat (0, 0) (n_best - length high)).
  { rewrite H1, H2. apply combine_maps. }
  destruct (index_of_in v (combine (f_liks_high f) (f_connectedness_high f))) as (i & Ei & En).
  { rewrite Ech. apply in_or_app. left. now apply in_map. }
  exists f, (mkscatter (combine (f_liks_low f) (f_connectedness_low f))
        (combine (ldel i (f_liks_high f)) (ldel i (f_connectedness_high f))) v), high, low.
  split; [exact Es|]. split.
  { unfold plot_liks_connectedness. cbv zeta. change (lik1 (f_model f), conn_val connectedness (f_model f)) with v.
    rewrite Ei. reflexivity. }
  cbn [sc_best sc_high sc_low]. split; [reflexivity|]. split; [exact P|]. split; [exact L|]. split; [exact O|]. split.
  - rewrite combine_ldel by (rewrite H1, H2, !app_length, !map_length, !repeat_length; reflexivity).
    rewrite <- Ech. now apply ldel_perm.
  - rewrite H3, H4. apply combine_maps.
Qed.

Lemma plot_liks_all models n_best : (0 < n_best <= length models)%nat ->
  (forall m, In m models -> connectedness m <> None) ->
  exists f sc, select lik1 liks1 connectedness models n_best = Ok f /\
    plot_liks_connectedness lik1 connectedness f = Ok sc /\
    In (f_model f) models /\ sc_best sc = point (f_model f) /\
    Permutation (sc_best sc :: sc_high sc ++ sc_low sc) (map point models) /\
    S (length (sc_high sc)) = n_best /\
    forall a b, In a (sc_best sc :: sc_high sc) -> In b (sc_low sc) -> fst b <= fst a.
Proof.
  intros Hn Hall.
  assert (Ec : filter (fun m => match connectedness m with Some _ => true | None => false end) models = models).
  { clear Hn. induction models as [|m ms IH]; [reflexivity|]. cbn [filter].
    destruct (connectedness m) eqn:E; [|exfalso; now apply (Hall m (or_introl eq_refl))].
    rewrite IH; [reflexivity|]. intros x Hx. apply Hall. now right. }
  assert (Hc : filter (fun m => match connectedness m with Some _ => true | None => false end) models <> [])
    by (rewrite Ec; destruct models; [cbn in Hn; lia|discriminate]).
  destruct (plot_liks_lemma models n_best Hn Hc) as (f & sc & high & low & Es & Ep & Eb & P & L & O & Ph & El).
  rewrite Ec in P, L. pose proof (Permutation_length P) as Lp. rewrite app_length in Lp.
  replace (n_best - length high)%nat with 0%nat in Ph by lia.
  replace (length models - n_best - length low)%nat with 0%nat in El by lia. cbn [repeat] in Ph, El. rewrite app_nil_r in Ph, El.
  destruct (select_spec lik1 liks1 connectedness models n_best) as (_ & _ & H).
  destruct (H Hn Hc) as (f' & b' & l' & Es' & P' & _ & _ & I' & _).
  rewrite Es in Es'. injection Es' as <-. apply (fun p => eq_ind _ (fun z => Permutation (b' ++ l') z) p _ Ec) in P'.
  exists f, sc. split; [exact Es|]. split; [exact Ep|].
  split; [apply (Permutation_in _ P'), in_or_app; now left|]. split; [exact Eb|]. split; [|split].
  - change (sc_best sc :: sc_high sc ++ sc_low sc) with ((sc_best sc :: sc_high sc) ++ sc_low sc).
    rewrite El. eapply perm_trans; [apply Permutation_app_tail, Ph|]. rewrite <- map_app. now apply Permutation_map.
  - pose proof (Permutation_length Ph) as Lh. cbn [length] in Lh. rewrite map_length in Lh. lia.
  - intros a b Ia Ib. apply (Permutation_in _ Ph) in Ia. rewrite El in Ib.
    apply in_map_iff in Ia as (x & <- & Ix). apply in_map_iff in Ib as (y & <- & Iy). cbn. now apply O.
Qed.

Lemma plot_liks_padding models n_best :
  let cands := filter (fun m => match connectedness m with Some _ => true | None => false end) models in
  (0 < n_best <= length models)%nat -> cands <> [] ->
  exists f sc, select lik1 liks1 connectedness models n_best = Ok f /\
    plot_liks_connectedness lik1 connectedness f = Ok sc /\
    Permutation (sc_best sc :: sc_high sc ++ sc_low sc)
      (map point cands ++ repeat (0, 0) (length models - length cands)).
Proof.
  intros cands Hn Hc. destruct (plot_liks_lemma models n_best Hn Hc) as (f & sc & high & low & Es & Ep & Eb & P & L & O & Ph & El).
  fold cands in P, L. exists f, sc. split; [exact Es|]. split; [exact Ep|].
  pose proof (Permutation_length P) as Lp. rewrite app_length in Lp.
  assert (Lc : (length cands <= length models)%nat).
  { unfold cands. clear. induction models as [|m ms IH]; [cbn; lia|]. cbn. destruct (connectedness m); cbn; lia. }
  change (sc_best sc :: sc_high sc ++ sc_low sc) with ((sc_best sc :: sc_high sc) ++ sc_low sc).
  eapply perm_trans; [apply Permutation_app_tail, Ph|]. rewrite El.
  replace (length models - length cands)%nat with ((n_best - length high) + (length models - n_best - length low))%nat by lia.
  rewrite repeat_app. eapply perm_trans; [|apply Permutation_app; [apply Permutation_map, P|reflexivity]].
  rewrite map_app, <- !app_assoc. apply Permutation_app_head. rewrite !app_assoc. apply Permutation_app_tail, Permutation_app_comm.
Qed.
End Lik.
