(* Lemmas about switching updates off. *)
From Verif Require Import Base BaseLemmas ConsModel UtilModel UtilSpec BLMModel BLMEMModel BLMSpec BLMSortLemmas BLMRunModel BLMRunSpec
  BLMFitModel UpdSpec.
Local Open Scope res_scope.
Local Open Scope R_scope.

Definition same (c : cfg settings) (p p' : par) : Prop :=
  (do_a c = false -> A1 p' = A1 p /\ A2 p' = A2 p) /\
  (do_s c = false -> S1 p' = S1 p /\ S2 p' = S2 p) /\
  (do_pk1 c = false -> pk1 p' = pk1 p).
Lemma same_refl c p : same c p p.
Proof. now repeat split. Qed.
Lemma same_trans c p q r : same c p q -> same c q r -> same c p r.
Proof.
  intros (H1 & H2 & H3) (G1 & G2 & G3). split; [|split]; intros E.
  - destruct (H1 E), (G1 E). split; congruence.
  - destruct (H2 E), (G2 E). split; congruence.
  - rewrite (G3 E). now apply H3.
Qed.

Section Upd.
Variable argsort : list R -> list nat.
Hypothesis Ha : forall l, is_argsort l (argsort l).
Variable qp_solver : list R -> list R -> problem -> qpres.
Variables (pp : period) (nl nk : nat).

Lemma update_A_same c qa data qi P p p' : update_A qp_solver nl nk c qa data qi P p = Ok p' -> same c p p'.
Proof.
  unfold update_A. destruct (do_a c) eqn:E; [|intros [= <-]; apply same_refl].
  destruct (XwY nl nk p data qi) as [q|]; [|discriminate]. cbn [bind].
  destruct (solve_qp qp_solver P (map Ropp q) qa); intros [= <-]; try apply same_refl.
  split; [|split]; intros E'; try (now split); congruence.
Qed.
Lemma update_S_same c qs data qi P p pA p' : update_S qp_solver nl nk c qs data qi P p pA = Ok p' -> same c pA p'.
Proof.
  unfold update_S. destruct (do_s c) eqn:E; [|discriminate].
  destruct (XwS nl nk p (A1 pA) (A2 pA) data qi) as [q|]; [|discriminate]. cbn [bind].
  destruct (solve_qp qp_solver P (map Ropp q) qs); intros [= <-]; try apply same_refl.
  split; [|split]; intros E'; try (now split); congruence.
Qed.
Lemma em_update_same c iter cons data qi p p' cons' :
  em_update qp_solver nl nk c iter cons data qi p = Ok (p', cons') -> same c p p'.
Proof.
  unfold em_update. intros H.
  assert (S0 : forall p0, (if do_pk1 c then pk <- update_pk1 nl nk (d_prior (other c)) data qi ;; Ok (set_pk1 pk p) else Ok p) = Ok p0 -> same c p p0).
  { intros p0. destruct (do_pk1 c) eqn:E; [|intros [= <-]; apply same_refl].
    destruct (update_pk1 _ _ _ _ _) as [pk|]; [|discriminate]. cbn [bind]. intros [= <-].
    split; [|split]; intros E'; try (now split); congruence. }
  destruct (if do_pk1 c then _ else _) as [p0|]; [|discriminate]. cbn [bind] in H.
  specialize (S0 p0 eq_refl). apply (same_trans _ _ p0); [exact S0|]. clear S0.
  destruct (if do_a c && (0 <? iter)%nat then _ else _) as [cs|]; [|discriminate]. cbn [bind] in H.
  destruct (m_step qp_solver nl nk c cs data qi p0) as [p1|] eqn:M; [|discriminate]. cbn [bind] in H. injection H as <- _.
  unfold m_step in M. destruct (do_a c || do_s c); [|injection M as <-; apply same_refl].
  destruct (XwX nl nk p0 data qi) as [P|]; [|discriminate]. cbn [bind] in M.
  destruct (update_A qp_solver nl nk c (fst cs) data qi P p0) as [pA|] eqn:UA; [|discriminate]. cbn [bind] in M.
  eapply same_trans; [eapply update_A_same; exact UA|eapply update_S_same; exact M].
Qed.
Lemma loop_same n c data : forall iter cons p prev prev_min lik liks p' lik' liks',
  movers_loop argsort qp_solver pp nl nk n c data iter cons p prev prev_min lik liks = Ok (p', lik', liks') -> same c p p'.
Proof.
  induction n as [|n IH]; intros iter cons p prev prev_min lik liks p' lik' liks' H; cbn [movers_loop] in H.
  - injection H as <- _ _. apply same_refl.
  - destruct (lp_movers nl nk p data) as [lp|]; [|discriminate]. cbn [bind] in H.
    destruct (mean_lse lp) as [m|]; [|discriminate]. cbn [bind] in H.
    destruct (posteriors lp) as [qi|]; [|discriminate]. cbn [bind] in H. cbv zeta in H.
    match type of H with (if ?b then _ else _) = _ => destruct b end; [injection H as <- _ _; apply same_refl|].
    destruct (em_update qp_solver nl nk c iter cons data qi p) as [[p0 cs]|] eqn:U; [|discriminate]. cbn [bind] in H.
    eapply same_trans; [eapply em_update_same; exact U|eapply IH; exact H].
Qed.

Lemma kept_lemma c nnm mn data p p' lik liks :
  fit_movers_ argsort qp_solver pp nl nk c nnm mn data p = Ok (p', lik, liks) ->
  exists s, relabelling nl s /\ (do_a c = false -> kept_A nl nk s p p') /\
    (do_s c = false -> kept_S nl nk s p p') /\ (do_pk1 c = false -> kept_pk1 nl nk s p p').
Proof.
  unfold fit_movers_. cbv zeta. intros H.
  destruct (gen_constraints nl nk c) as [cs|]; [|discriminate]. cbn [bind] in H.
  destruct (sort_spec argsort Ha pp nl nk false false p) as (s1 & t1 & R1 & Rt1 & T1 & H1 & _).
  set (q1 := sort_parameters argsort pp nl nk false false p) in *.
  destruct (movers_loop _ _ _ _ _ _ _ _ _ _ _ _ _ _ _) as [[[q2 lk] lks]|] eqn:L; [|discriminate]. cbn [bind] in H.
  apply loop_same in L as (LA & LS & LK).
  destruct (sort_spec argsort Ha pp nl nk false false q2) as (s2 & t2 & R2 & Rt2 & T2 & H2 & _).
  set (q3 := sort_parameters argsort pp nl nk false false q2) in *.
  assert (E3 : A1 p' = A1 q3 /\ A2 p' = A2 q3 /\ S1 p' = S1 q3 /\ S2 p' = S2 q3 /\ pk1 p' = pk1 q3).
  { injection H as H _ _. rewrite <- H. destruct nnm; now repeat split. }
  destruct E3 as (E1 & E2 & E3 & E4 & E5).
  exists (fun l => s1 (s2 l)). split.
  { unfold relabelling in *. rewrite <- (map_map s2 s1). eapply Permutation.perm_trans; [apply Permutation.Permutation_map, R2|exact R1]. }
  pose proof (fun l => relabelling_lt nl s2 l R2) as Lt. split; [|split]; intros Eo.
  - destruct (LA Eo) as [X Y]. intros l k Hl Hk. rewrite E1, E2.
    destruct (r_A _ _ _ _ _ _ H2 l k Hl Hk) as [-> ->]. rewrite X, Y, (T2 eq_refl).
    destruct (r_A _ _ _ _ _ _ H1 (s2 l) k (Lt l Hl) Hk) as [-> ->]. now rewrite (T1 eq_refl).
  - destruct (LS Eo) as [X Y]. intros l k Hl Hk. rewrite E3, E4.
    destruct (r_S _ _ _ _ _ _ H2 l k Hl Hk) as [-> ->]. rewrite X, Y, (T2 eq_refl).
    destruct (r_S _ _ _ _ _ _ H1 (s2 l) k (Lt l Hl) Hk) as [-> ->]. now rewrite (T1 eq_refl).
  - intros k1 k2 l Hk1 Hk2 Hl. rewrite E5, (r_pk1 _ _ _ _ _ _ H2 k1 k2 l Hk1 Hk2 Hl), (LK Eo), !(T2 eq_refl).
    rewrite (r_pk1 _ _ _ _ _ _ H1 k1 k2 (s2 l) Hk1 Hk2 (Lt l Hl)). now rewrite !(T1 eq_refl).
Qed.
Lemma s_off_lemma c nnm mn data p x : do_a c = true -> do_s c = false -> n_iters (other c) <> 0%nat ->
  fit_movers_ argsort qp_solver pp nl nk c nnm mn data p <> Ok x.
Proof.
  intros Ea Es Hn H. unfold fit_movers_ in H. cbv zeta in H.
  destruct (gen_constraints nl nk c) as [cs|]; [|discriminate]. cbn [bind] in H.
  destruct (n_iters (other c)) as [|n]; [now apply Hn|]. cbn [movers_loop] in H.
  destruct (lp_movers nl nk _ data) as [lp|]; [|discriminate]. cbn [bind] in H.
  destruct (mean_lse lp) as [m|]; [|discriminate]. cbn [bind] in H.
  destruct (posteriors lp) as [qi|]; [|discriminate]. cbn [bind converged andb] in H. cbv zeta in H.
  match type of H with context [em_update ?q ?a ?b ?c ?i ?cs ?d ?qi ?p] =>
    assert (N : forall y, em_update q a b c i cs d qi p <> Ok y);
    [|destruct (em_update q a b c i cs d qi p) as [y|]; [now apply (N y)|discriminate]] end.
  clear H. intros y H. unfold em_update in H.
  destruct (if do_pk1 c then _ else _) as [p0|]; [|discriminate]. cbn [bind] in H.
  destruct (if do_a c && (0 <? 0)%nat then _ else _) as [cs'|]; [|discriminate]. cbn [bind] in H.
  unfold m_step in H. rewrite Ea in H. cbn [orb] in H.
  destruct (XwX nl nk p0 data qi) as [P|]; [|discriminate]. cbn [bind] in H.
  destruct (update_A qp_solver nl nk c (fst cs') data qi P p0) as [pA|]; [|discriminate]. cbn [bind] in H.
  unfold update_S in H. now rewrite Es in H.
Qed.
End Upd.

Lemma ignored_lemma {X M : Type} nl fit conn nan b (c : cfg X) (m : M) a s k :
  let run c := fit_movers_cstr_uncstr nl (as_method fit) conn nan b (mkobj c m) in
  snd (run (set_updates a s k c)) = snd (run c) /\ rest (fst (run (set_updates a s k c))) = rest (fst (run c)).
Proof.
  cbv zeta. unfold fit_movers_cstr_uncstr, andthen, as_method, with_params.
  cbn [params rest set_updates set_update_a set_cons cons_a_all do_a do_s do_pk1 other fst snd].
  destruct (fit false _ m) as [m1 [e1|]]; cbn [fst snd params rest]; [now split|].
  destruct (1 <? nl)%nat.
  - cbn [params rest set_updates set_update_a set_cons cons_a_all do_a do_s do_pk1 other fst snd].
    destruct (fit false _ m1) as [m2 [e2|]]; cbn [fst snd params rest]; [now split|].
    cbn [params rest set_updates set_update_a set_cons cons_a_all do_a do_s do_pk1 other fst snd].
    destruct (fit false _ m2) as [m3 [e3|]]; cbn [fst snd params rest]; [now split|].
    cbn [params rest set_updates set_update_a set_cons cons_a_all do_a do_s do_pk1 other fst snd].
    destruct (fit b _ m3) as [m4 [e4|]]; cbn [fst snd params rest]; [now split|].
    destruct (if nan _ then _ else _) as [o [e5|]]; cbn [fst snd params rest]; now split.
  - cbn [params rest set_updates set_update_a set_cons cons_a_all do_a do_s do_pk1 other fst snd].
    destruct (fit b _ m1) as [m4 [e4|]]; cbn [fst snd params rest]; [now split|].
    destruct (if nan _ then _ else _) as [o [e5|]]; cbn [fst snd params rest]; now split.
Qed.

From Verif Require Import BLMFitSpec BLMPropLemmas BLMFitPropLemmas.
Lemma case_kept nnm : exists p' lik liks,
  fit_movers_ isort box_solver PFirst 2 2 (set_updates false true true (fit_cfg 1)) nnm 0 ex_data gap_par
  = Ok (p', lik, liks).
Proof.
  destruct (monotone_thm isort box_solver PFirst 2 2 (set_updates false true true (fit_cfg 1)) ex_data nnm 0 gap_par)
    as (p' & lik & liks & E & _).
  - exact isort_ok.
  - exact box_solver_exact.
  - lia.
  - lia.
  - exact ex_movers_data.
  - cbn. lra.
  - reflexivity.
  - reflexivity.
  - reflexivity.
  - exact (ex_cons_valid 1).
  - intros [=].
  - intros _. exact (conj ex_pairs ex_equal).
  - exact gap_values.
  - intros [=].
  - now exists p', lik, liks.
Qed.
