(* The iterations for the stayers, and the fits. *)
From Verif Require Import Base BaseLemmas UtilModel UtilSpec ConsModel ConsSpec ConsLemmas
  ConsBuild2Lemmas ConsPropLemmas BLMModel BLMEMModel BLMSpec BLMSortLemmas BLMEMLemmas BLMStayLemmas
  BLMFitModel BLMFitSpec BLMFitLemmas DBLMModel DBLMSpec DBLMEMSpec DBLMSortLemmas DBLMLikLemmas
  DBLMRegLemmas DBLMStepLemmas DBLMStep2Lemmas DBLMStep3Lemmas DBLMEMLemmas.
From Coq Require Import Permutation Sorted.
Local Open Scope res_scope.
Local Open Scope R_scope.

Section Stayers.
Variable argsort : list R -> list nat.
Hypothesis argsort_ok : forall l, is_argsort l (argsort l).
Variable solver : nat -> mat -> list R -> problem -> qpres.
Hypothesis exact : dexact solver.
Variables (nl nk : nat) (c : dsettings) (data : list dobs).
Hypothesis nl_pos : (0 < nl)%nat.
Let pm := periods_update_stayers.
Hypothesis cons_valid : forall o, In o (dcons_a c ++ dcons_a_all c ++ dcons_s c ++ dcons_s_all c) ->
  valid 2 nl nk o.
Hypothesis lb_pos : 0 < ds_lower_bound c.
Hypothesis prior : 1 <= dd_prior_stayers c.
Hypothesis observed : up_pk0 c = true -> dall_firms nk data.
Let no_b : bper -> nat -> R := fun _ _ => 0.

Lemma update_ASs_frame cons qi p :
  let p' := update_AS_stayers argsort solver nl nk c cons data qi p in
  dpk1 p' = dpk1 p /\ dpk0 p' = dpk0 p /\ dNNm p' = dNNm p /\ dNNs p' = dNNs p /\
  R12 p' = R12 p /\ R43 p' = R43 p /\ R32m p' = R32m p /\ R32s p' = R32s p /\
  dAb p' = dAb p /\ dSb p' = dSb p /\
  (forall t, t <> T2s -> t <> T3s -> dA p' t = dA p t /\ dS p' t = dS p t) /\
  (up_a_stayers c = false -> dA p' = dA p) /\
  (up_s_stayers c = false -> dS p' = dS p) /\
  (dS p' = dS p \/ exists x, dS p' = fst (store nl nk sqrt pm x (dS p, dSb p))).
Proof.
  clear. intros p'. unfold p', update_AS_stayers. fold pm.
  set (sa := dsolve _ _ _ _ _ _ _ (fst cons)).
  set (pA := if up_a_stayers c then match sa with QSol x => _ | _ => p end else p).
  set (ss := dsolve _ _ _ _ _ _ _ (snd cons)).
  assert (PA : exists t, pA = dset_A (t, dAb p) p /\
                 (forall u, u <> T2s -> u <> T3s -> t u = dA p u) /\
                 (up_a_stayers c = false -> t = dA p)).
  { unfold pA. destruct (up_a_stayers c); [|exists (dA p); now destruct p].
    destruct sa as [x| |]; [|exists (dA p); split; [now destruct p|]; split; [auto|discriminate]..].
    exists (fst (store nl nk (fun r => r) pm x (dA p, dAb p))).
    destruct (store_stayers nl nk (fun r => r) x (dA p) (dAb p)) as (_ & _ & S3).
    split; [reflexivity|]. split; [exact S3|]. discriminate. }
  destruct PA as (t & -> & T1 & T2).
  assert (F : forall q, q = dset_A (t, dAb p) p -> 
    dpk1 q = dpk1 p /\ dpk0 q = dpk0 p /\ dNNm q = dNNm p /\ dNNs q = dNNs p /\
    R12 q = R12 p /\ R43 q = R43 p /\ R32m q = R32m p /\ R32s q = R32s p /\
    dAb q = dAb p /\ dSb q = dSb p /\
    (forall t, t <> T2s -> t <> T3s -> dA q t = dA p t /\ dS q t = dS p t) /\
    (up_a_stayers c = false -> dA q = dA p) /\ (up_s_stayers c = false -> dS q = dS p) /\
    (dS q = dS p \/ exists x, dS q = fst (store nl nk sqrt pm x (dS p, dSb p)))).
  { intros q ->. repeat (split; [reflexivity|]). split; [|split; [|split; [reflexivity|now left]]].
    - intros u H1 H2. split; [now apply T1|reflexivity].
    - exact T2. }
  destruct (up_s_stayers c) eqn:Es; [|now apply F].
  destruct ss as [x| |]; [|now apply F..].
  destruct (store_stayers nl nk sqrt x (dS p) (dSb p)) as (_ & S2 & S3).
  repeat (split; [reflexivity|]). split; [|split; [|split; [discriminate|right; exists x; reflexivity]]].
  - intros u H1 H2. split; [now apply T1|now apply S3].
  - exact T2.
Qed.

Definition sinv (p : dpar) : Prop := forall o, In o data -> dstayer_ok nl nk p o.

Lemma sposterior_pos p o l : sinv p -> In o data -> (l < nl)%nat -> 0 < stayer_posterior nl p o l.
Proof.
  intros H Ho Hl. pose proof (H o Ho) as H0. unfold stayer_posterior.
  assert (P : forall l, (l < nl)%nat -> 0 < dpk0 p (dg1 o) l * dstayer_density p o l).
  { intros l' Hl'. apply Rmult_lt_0_compat; [|eapply dstayer_density_pos; eauto].
    destruct H0 as (_ & Q). now destruct (Q l' Hl'). }
  apply Rdiv_lt_0_compat; [now apply P|]. unfold mixture_s, mixture.
  apply sumn_pos; [exact nl_pos|]. exact P.
Qed.

Lemma firm_count_key p k l :
  kcount (dd_prior_stayers c) dg1 (stayer_posterior nl p) data k l = firm_count nl c data p k l.
Proof. unfold kcount, firm_count. now rewrite rsum_filter. Qed.

Lemma pk0_step p : sinv p ->
  exists pk, (if up_pk0 c
              then pk <- dpk_update nk nl (dd_prior_stayers c) (map dg1 data)
                     (table nl (stayer_posterior nl p) data) ;; Ok (dset_pk0 pk p)
              else Ok p) = Ok (dset_pk0 pk p) /\
    (if up_pk0 c
     then forall k l, (k < nk)%nat -> (l < nl)%nat ->
        pk k l = firm_count nl c data p k l / sumn nl (firm_count nl c data p k)
     else pk = dpk0 p) /\
    sinv (dset_pk0 pk p).
Proof.
  intros Hm. destruct (up_pk0 c) eqn:Eu.
  - destruct (dpk_update_ok nk nl (dd_prior_stayers c) dg1
                (stayer_posterior nl p) data nl_pos prior) as (pk & Epk & Hpk).
    + intros o l Ho Hl. now apply sposterior_pos.
    + intros k Hk. exact (observed eq_refl k Hk).
    + exists pk. rewrite Epk. cbn [bind]. split; [reflexivity|]. split.
      * intros k l Hk Hl. destruct (Hpk k l Hk Hl) as [E _].
        rewrite E, firm_count_key. f_equal. apply sumn_ext. intros l' _. apply firm_count_key.
      * intros o Ho. destruct (Hm o Ho) as (H1 & H3). split; [exact H1|].
        intros l Hl. destruct (H3 l Hl) as (_ & R). split; [|exact R].
        cbn [dset_pk0 dpk0]. now apply Hpk.
  - exists (dpk0 p). split; [now destruct p|]. split; [reflexivity|]. now destruct p.
Qed.

Lemma sA_best_optimal p pk B :
  sA_best nl nk c data (table nl (stayer_posterior nl p) data) (dset_pk0 pk p) B
  <-> As_optimal nl nk c data p B.
Proof.
  assert (L : forall C, sA_objective nl nk c data (table nl (stayer_posterior nl p) data)
                (dset_pk0 pk p) C = As_loss nl nk c data p C).
  { intros C. unfold sA_objective, As_loss. now rewrite weighted_total. }
  unfold sA_best, As_optimal, cons_stayers_A. split.
  - intros (H1 & H3). split; [exact H1|]. intros C H4. rewrite <- !L. now apply H3.
  - intros (H1 & H3). split; [exact H1|]. intros C H4. rewrite !L. now apply H3.
Qed.

Lemma sS_ok_feasible V : sS_ok nl nk c V <-> Vs_feasible nl nk c V.
Proof.
  unfold sS_ok, Vs_feasible, cons_stayers_S. fold pm.
  destruct (BoundedBelow_spec (ds_lower_bound c) 2 nl nk) as (d & Ed & _ & Hd).
  split.
  - intros (x & Hx & D). split.
    + intros l k Hl Hk.
      assert (Hs : sat d x) by (apply (D _ d (or_introl eq_refl)); exact Ed).
      rewrite Hd in Hs. pose proof (Hs 0%nat l k ltac:(lia) Hl Hk) as B0.
      pose proof (Hs 1%nat l k ltac:(lia) Hl Hk) as B1.
      rewrite (Hx 0%nat (PA T2s) l k eq_refl Hl Hk) in B0.
      rewrite (Hx 1%nat (PA T3s) l k eq_refl Hl Hk) in B1. now split.
    + exists x. split; [exact Hx|]. intros o d' Ho. apply D. now right.
  - intros [B (x & Hx & D)]. exists x. split; [exact Hx|].
    intros o d' [<-|Ho] Ed'; [|now apply (D o d' Ho)].
    assert (d' = d) as -> by (assert (X : BoundedBelow (ds_lower_bound c) 2 nl nk = Ok d') by exact Ed'; congruence).
    apply Hd. intros t l k Ht Hl Hk. destruct (B l k Hl Hk) as [B0 B1].
    assert (t = 0 \/ t = 1)%nat as [->| ->] by lia.
    + now rewrite (Hx 0%nat (PA T2s) l k eq_refl Hl Hk).
    + now rewrite (Hx 1%nat (PA T3s) l k eq_refl Hl Hk).
Qed.
Lemma Vs_loss_code p pk A V :
  sS_code nl nk c data (table nl (stayer_posterior nl p) data) (dset_pk0 pk p) A V
  = Vs_loss' nl nk c data p A V.
Proof.
  unfold sS_code, Vs_loss'. rewrite weighted_total. f_equal. unfold total. apply f_equal. apply map_ext.
  intros o. apply sumn_ext. intros l _. f_equal. rewrite !sumn_S, sumn_0.
  unfold stayer_var_fit'. cbn [seps spart svar]. rewrite Rplus_0_l. reflexivity.
Qed.

Lemma sS_positive p cons qi : sinv p ->
  let p' := update_AS_stayers argsort solver nl nk c cons data qi p in
  Vs_feasible nl nk c (sq (dS p')) \/ dS p' = dS p -> sinv p'.
Proof.
  intros H p' HV o Ho. destruct (update_ASs_frame cons qi p) as
    (_ & F1 & _ & _ & _ & _ & _ & _ & _ & _ & FT & _ & _ & FS). fold p' in F1, FT, FS.
  destruct (H o Ho) as (H1 & H3). split; [exact H1|]. intros l Hl.
  destruct (H3 l Hl) as (P0 & P1 & P2 & P3 & P4). rewrite F1. split; [exact P0|].
  destruct HV as [HV| ->]; [|auto].
  destruct FS as [-> |[x FS]]; [auto|].
  destruct HV as (B & _). destruct (B l (dg1 o) Hl H1) as [B0 B1].
  assert (Q : forall i a k, nth_error pm i = Some (PA a) -> ds_lower_bound c <= sq (dS p') a l k -> 0 < dS p' a l k).
  { intros i a k Hi Bk. unfold sq in Bk.
    destruct (store_stayers nl nk sqrt x (dS p) (dSb p)) as (S1 & _).
    assert (0 <= dS p' a l k).
    { rewrite FS. unfold pm. rewrite (S1 i a l k Hi). apply sqrt_pos. }
    destruct (Req_dec (dS p' a l k) 0) as [Z|Z]; [|lra]. rewrite Z in Bk. exfalso. nra. }
  destruct (FT T12) as [_ E1]; [discriminate..|]. destruct (FT T43) as [_ E2]; [discriminate..|].
  rewrite E1, E2. split; [exact P1|]. split; [exact (Q 0%nat T2s _ eq_refl B0)|].
  split; [exact (Q 1%nat T3s _ eq_refl B1)|exact P4].
Qed.

Lemma em_step_s_ok iter cons p :
  dgen_constraints nl nk c false = Ok cons -> sinv p ->
  exists p', dem_update_stayers argsort solver nl nk c iter cons data
               (table nl (stayer_posterior nl p) data) p = Ok (p', cons) /\
    stayer_step solver nl nk c data iter p p' /\ sinv p'.
Proof.
  intros Ec Hm. 
  destruct (pk0_step p Hm) as (pk & E1 & Hpk & Hm1).
  unfold dem_update_stayers. rewrite E1. cbn [bind].
  set (p1 := dset_pk0 pk p) in *. set (qi := table nl (stayer_posterior nl p) data).
  assert (Qp : forall o l, In o data -> (l < nl)%nat -> 0 < stayer_posterior nl p o l)
    by (intros; now apply sposterior_pos).
  destruct (up_rho32s c && (iter mod 2 =? 1)%nat)%bool eqn:Et.
  - eexists. split; [reflexivity|]. split.
    + assert (Eb : rho_turn_s c iter = true) by exact Et.
      split; rewrite ?Eb; cbn [andb negb].
      * destruct (up_pk0 c); exact Hpk.
      * intros Hr. apply (rho_least nl data (fun l o => dy2 o - dA p T2s l (dg1 o))
          (fun l o => dy3 o - dA p T3s l (dg1 o)) (fun l o => svar3 p (sq (dS p)) o l)).
        -- intros o l Ho Hl. now destruct (dstayer_vars_pos nl nk p o l (Hm o Ho) Hl) as (_ & ? & _).
        -- exact Qp.
        -- destruct Hr as (o & l & Ho & Hl & Hn). exists o, l. repeat split; auto. lra.
      * reflexivity.
      * reflexivity.
      * repeat split.
      * now split.
    + exact Hm1.
  - assert (Eb : rho_turn_s c iter = false) by exact Et.
    destruct (up_a_stayers c || up_s_stayers c)%bool eqn:Eas.
    + assert (Ecc : (if (up_a_stayers c && (0 <? iter)%nat)%bool then dgen_constraints nl nk c false else Ok cons) = Ok cons)
        by (destruct (up_a_stayers c && (0 <? iter)%nat)%bool; [exact Ec|reflexivity]).
      rewrite Ecc. cbn [bind]. eexists. split; [reflexivity|].
      set (p' := update_AS_stayers argsort solver nl nk c cons data qi p1).
      assert (firms : forall o, In o data -> (dg1 o < nk)%nat)
        by (intros o Ho; now destruct (Hm o Ho)).
      assert (rows : length qi = length data) by apply length_table.
      destruct (update_ASs_frame cons qi p1) as (F1 & F2 & F3 & F4 & F5 & F6 & F7 & F8 & F9 & F10 & F11 & FA & FS & _).
      fold p' in F1, F2, F3, F4, F5, F6, F7, F8, F9, F10, F11, FA, FS.
      assert (SA : if up_a_stayers c
         then (dA p' = dA p \/ As_optimal nl nk c data p (dA p')) /\
              (dcomplete solver -> (exists A, As_optimal nl nk c data p A) ->
               As_optimal nl nk c data p (dA p'))
         else dA p' = dA p).
      { destruct (up_a_stayers c) eqn:Ua; [|now apply FA].
        destruct (sA_step argsort argsort_ok solver exact nl nk c data qi p1 nl_pos firms rows cons_valid
                    cons Ec Ua) as (W1 & W2 & _). fold p' in W1, W2. unfold qi, p1 in W1, W2.
        rewrite sA_best_optimal in W1, W2. split; [exact W1|].
        intros Hc (A & HO). apply W2; [exact Hc|]. exists A. now apply sA_best_optimal. }
      assert (SV : if up_s_stayers c
         then (dS p' = dS p \/ Vs_optimal' nl nk c data p (dA p') (sq (dS p'))) /\
              (dcomplete solver -> (exists V, Vs_optimal' nl nk c data p (dA p') V) ->
               Vs_optimal' nl nk c data p (dA p') (sq (dS p')))
         else dS p' = dS p).
      { destruct (up_s_stayers c) eqn:Us; [|now apply FS].
        destruct (sS_step_code argsort argsort_ok solver exact nl nk c data qi p1 nl_pos firms rows cons_valid
                    (Rlt_le _ _ lb_pos) cons Ec Us) as [W1 W2]. fold p' in W1, W2.
        assert (L : forall t, sS_code nl nk c data qi p1 (dA p') t
                     = Vs_loss' nl nk c data p (dA p') t)
          by (intros t; apply Vs_loss_code).
        assert (O : sS_ok nl nk c (sq (dS p')) /\
            (forall t, sS_ok nl nk c t -> sS_code nl nk c data qi p1 (dA p') (sq (dS p'))
                 <= sS_code nl nk c data qi p1 (dA p') t) ->
            Vs_optimal' nl nk c data p (dA p') (sq (dS p'))).
        { intros [O1 O2]. split; [now apply sS_ok_feasible|].
          intros W HW. specialize (O2 W). rewrite !L in O2. apply O2. now apply sS_ok_feasible. }
        split.
        - destruct W1 as [W1|W1]; [now left|right; now apply O].
        - intros Hc (V & HV1 & HV2). apply O. apply W2; [exact Hc|].
          exists V. split; [now apply sS_ok_feasible|]. intros W HW. rewrite !L.
          apply HV2. now apply sS_ok_feasible. }
      split.
      * split; rewrite ?Eb; cbn [andb negb].
        -- rewrite F2. unfold p1. cbn [dset_pk0 dpk0]. exact Hpk.
        -- exact F8.
        -- exact SA.
        -- exact SV.
        -- repeat split; try assumption; now apply F11.
        -- now split.
      * apply (sS_positive p1 cons qi Hm1). fold p'.
        destruct (up_s_stayers c); [destruct SV as [[SV|[SV _]] _]|]; auto.
    + eexists. split; [reflexivity|]. apply Bool.orb_false_iff in Eas as [Ua Us].
      split; [|exact Hm1].
      split; rewrite ?Eb, ?Ua, ?Us; cbn [andb negb]; try reflexivity; try exact Hpk; repeat split.
Qed.

Lemma lik_reported_s iter p :
  diter_lik_stayers nl nk c iter p (dstayers_loglik nl p data) = reported_s nl nk c data iter p.
Proof. clear. unfold diter_lik_stayers, reported_s, lik_prior. destruct (_ && _)%bool; ring. Qed.

Definition same_stable (p p' : dpar) : Prop :=
  (forall t, t <> T2s -> t <> T3s -> dA p' t = dA p t /\ dS p' t = dS p t) /\
  R12 p' = R12 p /\ R43 p' = R43 p.
Lemma stable_eq p p' : same_stable p p' -> dlp_stable nl nk p' data = dlp_stable nl nk p data.
Proof.
  clear. intros (F & E1 & E2). unfold dlp_stable, stayer_stable. rewrite E1, E2.
  destruct (F T12) as [-> ->]; [discriminate..|]. destruct (F T43) as [-> ->]; [discriminate..|].
  destruct (F T2ma) as [-> ->]; [discriminate..|]. destruct (F T3ma) as [-> ->]; [discriminate..|].
  reflexivity.
Qed.

Lemma loop_path_s n : forall iter cons p prev lik liks stable,
  dgen_constraints nl nk c false = Ok cons -> sinv p -> dlp_stable nl nk p data = Ok stable ->
  exists p' lik' ls,
    dstayers_loop argsort solver nl nk n c data stable iter cons p prev lik liks
      = Ok (p', lik', liks ++ ls) /\
    stayer_path solver nl nk c data n iter prev p ls p' /\ sinv p' /\
    lik' = match rev ls with [] => lik | l :: _ => Some l end.
Proof.
  induction n as [|n IH]; intros iter cons p prev lik liks stable Ec Hm Est.
  - exists p, lik, []. cbn [dstayers_loop rev]. rewrite app_nil_r. split; [reflexivity|].
    split; [constructor|]. now split.
  - cbn [dstayers_loop].
    destruct (dlp_stayers_spec nl nk p data nl_pos Hm) as (st & lp & E0 & E1 & E2 & E3).
    rewrite Est in E0. injection E0 as <-.
    rewrite E1. cbn [bind]. rewrite E2. cbn [bind]. rewrite E3. cbn [bind].
    rewrite lik_reported_s. set (r := reported_s nl nk c data iter p).
    destruct (converged (dthreshold c) r prev) eqn:Ecv.
    + exists p, (Some r), [r]. split; [reflexivity|].
      unfold converged in Ecv. destruct prev as [l0|]; [|discriminate].
      destruct (Rlt_dec (Rabs (r - l0)) (dthreshold c)) as [Hlt|]; [|discriminate].
      split; [now constructor|]. now split.
    + destruct (em_step_s_ok iter cons p Ec Hm) as (p1 & Eu & Hs & Hm1).
      unfold table in Eu. rewrite Eu. cbn [bind].
      assert (Est1 : dlp_stable nl nk p1 data = Ok stable).
      { rewrite <- Est. apply stable_eq. destruct (ss_movers _ _ _ _ _ _ _ _ Hs) as (M1 & _ & _ & _ & M2 & M3 & _).
        repeat split; try assumption; now apply M1. }
      destruct (IH (S iter) cons p1 (Some r) (Some r) (liks ++ [r]) stable Ec Hm1 Est1)
        as (p2 & lik2 & ls & El & Hp & Hm2 & Hl).
      exists p2, lik2, (r :: ls). rewrite El. split; [now rewrite <- app_assoc|].
      split; [now apply sp_step with p1|]. split; [exact Hm2|].
      rewrite Hl. cbn [rev]. destruct (rev ls); reflexivity.
Qed.

Lemma fit_stayers_path compute_NNs p : sinv p ->
  exists q lik ls, dfit_stayers argsort solver nl nk c compute_NNs data p
      = Ok (if compute_NNs then dset_NNs (dstayer_counts data) q else q, lik, ls) /\
    stayer_path solver nl nk c data (dn_iters_stayers c) 0 None p ls q /\
    lik = match rev ls with [] => None | l :: _ => Some l end.
Proof.
  intros Hm. destruct (dlp_stayers_spec nl nk p data nl_pos Hm) as (st & _ & E0 & _).
  destruct (dgen_constraints_ok nl nk c false nl_pos cons_valid) as (qa & qs & Ec & _).
  unfold dfit_stayers. rewrite E0. cbn [bind]. rewrite Ec. cbn [bind].
  destruct (loop_path_s (dn_iters_stayers c) 0 (qa, qs) p None None [] st Ec Hm E0)
    as (q & lik & ls & El & Hp & _ & Hl).
  exists q, lik, ls. rewrite El. cbn [bind app]. split; [now destruct compute_NNs|]. now split.
Qed.
End Stayers.

Lemma fit_movers_path argsort solver pp nl nk c compute_NNm data p :
  (forall l, is_argsort l (argsort l)) -> dexact solver -> (0 < nl)%nat ->
  (forall o, In o (dcons_a c ++ dcons_a_all c ++ dcons_s c ++ dcons_s_all c) ->
     valid (length (periods_movers (endogeneity c) (state_dependence c))) nl nk o) ->
  0 < ds_lower_bound c -> 1 <= dd_prior c -> (up_pk1 c = true -> dall_pairs nk data) ->
  minv nl nk c data p ->
  exists s0 p0 p1 s1 p2 lik ls,
    relabelling nl s0 /\ drelabelled nl nk s0 (fun k => k) p p0 /\
    mover_path solver nl nk c data (dn_iters c) 0 None p0 ls p1 /\
    relabelling nl s1 /\ drelabelled nl nk s1 (fun k => k) p1 p2 /\
    ordered false nl (worker_mean pp nk (dA p2 T12) (dA p2 T43)) /\
    dfit_movers argsort solver pp nl nk c compute_NNm data p
      = Ok (if compute_NNm then dset_NNm (dmover_counts data) p2 else p2, lik, ls) /\
    lik = match rev ls with [] => None | l :: _ => Some l end.
Proof.
  intros Ha He Hnl Hv Hlb Hd Hp Hm.
  destruct (dsort_spec argsort Ha pp nl nk false false p) as (s0 & t0 & Rs0 & _ & T0 & D0 & _).
  set (p0 := dsort_parameters argsort pp nl nk false false p) in *.
  assert (D0' : drelabelled nl nk s0 (fun k => k) p p0).
  { eapply drelabelled_ext; [reflexivity| |exact D0]. intros k _. symmetry. now apply T0. }
  pose proof (minv_relabelled nl nk c data s0 p p0 Rs0 D0' Hm) as Hm0.
  destruct (dgen_constraints_ok nl nk c true Hnl Hv) as (qa & qs & Ec & _).
  destruct (loop_path argsort Ha solver He nl nk c data Hnl Hv Hlb Hd Hp pp (dn_iters c) 0 (qa, qs) p0
              None (dmin_firm_type argsort pp nl nk p0) None [] Ec Hm0)
    as (p1 & lik & ls & El & Hpath & _ & Hl).
  destruct (dsort_spec argsort Ha pp nl nk false false p1) as (s1 & t1 & Rs1 & _ & T1 & D1 & O1 & _).
  set (p2 := dsort_parameters argsort pp nl nk false false p1) in *.
  assert (D1' : drelabelled nl nk s1 (fun k => k) p1 p2).
  { eapply drelabelled_ext; [reflexivity| |exact D1]. intros k _. symmetry. now apply T1. }
  exists s0, p0, p1, s1, p2, lik, ls.
  do 6 (split; [assumption|]). split; [|exact Hl].
  unfold dfit_movers. fold p0. rewrite Ec. cbn [bind]. rewrite El. cbn [bind app]. reflexivity.
Qed.
