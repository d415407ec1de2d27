(* The variances of the movers; effects and variances of the stayers; rho. *)
From Verif Require Import Base BaseLemmas UtilModel UtilSpec ConsModel ConsSpec ConsQPLemmas
  ConsLemmas ConsBuild2Lemmas ConsPropLemmas BLMModel BLMEMModel BLMSpec BLMSortLemmas BLMFitModel BLMFitSpec
  BLMFitLemmas DBLMModel DBLMSpec DBLMRegLemmas DBLMStepLemmas.
From Coq Require Import Permutation Sorted.
Local Open Scope res_scope.
Local Open Scope R_scope.

Lemma cons_b_valid nl nk c : (0 < nl)%nat ->
  forall o, In o (cons_b c true) ->
    valid (length (periods_movers (endogeneity c) (state_dependence c))) nl nk o.
Proof.
  intros Hnl o. unfold cons_b. cbn [andb]. destruct (0 <? length (nnt_b c))%nat; [|intros []].
  intros [<-|[]]. cbn [valid]. split; [reflexivity|]. split; [lia|]. cbn [periods].
  unfold in_periods, nnt_b. destruct (endogeneity c), (state_dependence c); cbn; intros t Ht;
  intuition lia.
Qed.

Lemma bounded_demand lb nt nl nk x t l k : demands nl nk [CBoundedBelow lb nt] x ->
  (t < nt)%nat -> (l < nl)%nat -> (k < nk)%nat -> lb <= eff nl nk x t l k.
Proof.
  intros H Ht Hl Hk. destruct (BoundedBelow_spec lb nt nl nk) as (d & Ed & _ & Hd).
  assert (Hs : sat d x) by (apply (H _ d (or_introl eq_refl)); exact Ed).
  rewrite Hd in Hs. now apply Hs.
Qed.

(* the squared residual of equation a *)
Definition meps (p : dpar) (l a : nat) (o : dobs) : R :=
  match a with
  | 0%nat => (dy1 o - mean1 p (dA p) o l) ^ 2
  | 1%nat => (dy2 o - mean2 (dA p) (dAb p) o l) ^ 2
  | 2%nat => (dy3 o - mean3 p (dA p) (dAb p) o l) ^ 2
  | _ => (dy4 o - mean4 p (dA p) o l) ^ 2
  end.
Lemma eps_movers_rows p data l :
  eps_movers p data l = flat_map (fun a => map (meps p l a) data) (range 4).
Proof.
  unfold eps_movers, range. cbn [seq flat_map]. rewrite app_nil_r.
  apply f_equal2; [|apply f_equal2; [|apply f_equal2]]; apply map_ext; intros o;
    unfold meps, mean1, mean3, mean4, mean2; f_equal; ring.
Qed.

(* a rho for which the coefficient used for the variances, -rho, is the square *)
Definition neg_square (r : R) : Prop := - r = r ^ 2.

Section MoverVar.
Variable argsort : list R -> list nat.
Hypothesis argsort_ok : forall l, is_argsort l (argsort l).
Variable solver : nat -> mat -> list R -> problem -> qpres.
Hypothesis exact : dexact solver.
Variables (nl nk : nat) (c : dsettings) (data : list dobs) (qi : list (list R)) (p : dpar).
Hypothesis nl_pos : (0 < nl)%nat.
Hypothesis firms : forall o, In o data -> (dg1 o < nk)%nat /\ (dg4 o < nk)%nat.
Hypothesis rows : length qi = length data.
Let e := endogeneity c.
Let s := state_dependence c.
Let pm := periods_movers e s.
Hypothesis cons_valid : forall o, In o (dcons_a c ++ dcons_a_all c ++ dcons_s c ++ dcons_s_all c) ->
  valid (length pm) nl nk o.
Hypothesis lb_nonneg : 0 <= ds_lower_bound c.

Definition cons_movers_S : list cobj :=
  CBoundedBelow (ds_lower_bound c) (length pm) :: dcons_s c ++ dcons_s_all c.
(* what the code minimises, for any rho *)
Definition S_code (A : aper -> mat) (Ab : bper -> nat -> R) (t : tbl) : R :=
  weighted nl (fun o l => sumn 4 (fun a =>
    sqdev (meps (dset_A (A, Ab) p) l a o) (mpart p (fst t) (snd t) l a o) (mvar p l a o))) data qi
  + dridge (d_X_diag c) nl nk pm (fst t) (snd t).
Definition S_ok (t : tbl) : Prop :=
  dallowed nl nk pm cons_movers_S (fst t) (snd t) /\ b_absent nk e s (snd t).

Let stk (t : tbl) (x : nat -> R) : Prop := dstacked nl nk pm (fst t) (snd t) x /\ b_absent nk e s (snd t).

Lemma S_step_code cons :
  dgen_constraints nl nk c true = Ok cons -> b_absent nk e s (dSb p) -> up_s c = true ->
  let p' := update_AS argsort solver nl nk c cons data qi p in
  let v' : tbl := (sq (dS p'), sqb (dSb p')) in
  (dS p' = dS p /\ dSb p' = dSb p \/
   S_ok v' /\ (forall t, S_ok t -> S_code (dA p') (dAb p') v' <= S_code (dA p') (dAb p') t)) /\
  (dcomplete solver ->
   (exists t, S_ok t /\ forall t', S_ok t' -> S_code (dA p') (dAb p') t <= S_code (dA p') (dAb p') t') ->
   S_ok v' /\ (forall t, S_ok t -> S_code (dA p') (dAb p') v' <= S_code (dA p') (dAb p') t)).
Proof.
  intros Ec Hb Hu p' v'.
  destruct (dgen_constraints_ok nl nk c true nl_pos cons_valid) as (qa & qs & Eg & _ & Hs).
  rewrite Ec in Eg. injection Eg as ->.
  assert (Hs' : forall x, accepts qs x <-> demands nl nk (cons_b c true ++ cons_movers_S) x).
  { intros x. rewrite Hs. unfold cons_movers_S, demands. cbn [dperiods]. fold e s pm.
    split; intros H o d Ho; apply H; revert Ho; cbn [In]; rewrite !in_app_iff; cbn [In];
      rewrite ?in_app_iff; tauto. }
  assert (Hv : forall o, In o (cons_b c true ++ cons_movers_S) -> valid (length pm) nl nk o).
  { intros o Ho. apply in_app_or in Ho as [Ho|Ho]; [now apply cons_b_valid|].
    destruct Ho as [<-|Ho]; [reflexivity|]. apply cons_valid.
    apply in_app_or in Ho as [Ho|Ho]; rewrite !in_app_iff; auto. }
  set (X := X_movers nk e s p data).
  set (wts := fun l => weights 4 qi l (var_movers p data l)).
  set (pA := if up_a c then match dsolve argsort solver nl nk (length pm)
                 (XwX (4 * length data) (nk * length pm) nl X wts (d_X_diag c))
                 (Xwv (4 * length data) (nk * length pm) nl X wts (fun _ => Y_movers p data)) qa with
                 | QSol x => dset_A (store nl nk (fun r => r) pm x (dA p, dAb p)) p
                 | _ => p end else p).
  assert (PA : exists t, pA = dset_A t p).
  { unfold pA. destruct (up_a c); [|exists (dA p, dAb p); now destruct p].
    destruct (dsolve _ _ _ _ _ _ _ _); [eexists; reflexivity|exists (dA p, dAb p); now destruct p..]. }
  destruct PA as [tA EpA].
  set (y := eps_movers pA data).
  set (dslv := dsolve argsort solver nl nk (length pm)
                 (XwX (4 * length data) (nk * length pm) nl X wts (d_X_diag c))
                 (Xwv (4 * length data) (nk * length pm) nl X wts y) qs).
  assert (E' : p' = match dslv with
                    | QSol x => dset_S (store nl nk sqrt pm x (dS p, dSb p)) pA
                    | _ => pA end).
  { unfold p', update_AS. rewrite Hu. reflexivity. }
  assert (EA : dA p' = fst tA /\ dAb p' = snd tA).
  { rewrite E'. destruct dslv; rewrite EpA; now split. }
  destruct EA as [EA1 EA2]. rewrite EA1, EA2.
  set (obj := fun t : tbl => S_code (fst tA) (snd tA) t).
  set (unst := fun x => let t := store nl nk sqrt pm x (dS p, dSb p) in (sq (fst t), sqb (snd t)) : tbl).
  assert (Hobj : forall t x, stk t x -> wss (length pm) nl nk (4 * length data) X wts y (d_X_diag c) x = obj t).
  { intros [A Ab] x [H B]. unfold obj, S_code.
    apply (wss_movers_gen nl nk e s p data qi (d_X_diag c) firms rows (meps (dset_A (fst tA, snd tA) p))); try assumption.
    intros l. unfold y. rewrite EpA, eps_movers_rows. destruct tA; reflexivity. }
  assert (Hun : forall x, length x = (nl * (nk * length pm))%nat ->
            demands nl nk (cons_b c true ++ cons_movers_S) (fun i => nth i x 0) ->
            stk (unst x) (fun i => nth i x 0)).
  { intros x _ D.
    assert (D0 : forall t l k, (t < length pm)%nat -> (l < nl)%nat -> (k < nk)%nat ->
                   0 <= nth (pidx nl nk t l k) x 0).
    { intros t l k Ht Hl Hk. pose proof (bounded_demand (ds_lower_bound c) (length pm) nl nk
        (fun i => nth i x 0) t l k) as Q.
      rewrite <- pidx_eff in Q. apply Rle_trans with (2 := Q ltac:(
        intros o d [<-|[]]; apply D; apply in_or_app; right; left; reflexivity) Ht Hl Hk).
      exact lb_nonneg. }
    assert (Db : demands nl nk (cons_b c true) (fun i => nth i x 0))
      by (intros o d Ho; apply D; apply in_or_app; now left).
    destruct (store_movers nl nk e s sqrt x (dS p) (dSb p)) as (S1 & S2 & S3 & S4 & _).
    fold pm in S1, S2, S3, S4. split.
    - intros i u l k Hu' Hl Hk.
      assert (Li : (i < length pm)%nat) by (apply nth_error_Some; congruence).
      destruct u as [a|b]; cbn [period_value unst fst snd]; unfold sq, sqb.
      + rewrite (S1 i a l k Hu'). rewrite pow2_sqrt by now apply D0. now rewrite <- pidx_eff.
      + rewrite (S2 i b k Hu'). rewrite pow2_sqrt by now apply D0.
        rewrite (proj1 (cons_b_spec nl nk c nl_pos _) Db i b l 0%nat k Hu' Hk Hl nl_pos).
        now rewrite <- pidx_eff.
    - destruct Hb as [B1 B2]. split; intros Q k Hk; cbn [unst fst snd]; unfold sqb.
      + rewrite S3 by exact Q. rewrite B1 by auto. ring.
      + rewrite S4 by exact Q. rewrite B2 by auto. ring. }
  assert (CO : forall t, can nl nk (cons_b c true ++ cons_movers_S) stk t <-> S_ok t)
    by (intros t; apply can_allowed; assumption).
  assert (Best : forall x, dslv = QSol x -> S_ok v' /\
            forall t, S_ok t -> obj v' <= obj t).
  { intros x Ex.
    destruct (dslv_sound argsort argsort_ok solver exact (length pm) nl nk (4 * length data) X wts y
                (d_X_diag c) qs (cons_b c true ++ cons_movers_S) Hs' stk obj unst Hobj Hun x Ex)
      as (_ & Hcan & _ & _ & Hmin).
    assert (Ev : v' = unst x).
    { unfold v'. rewrite E', Ex. reflexivity. }
    rewrite Ev. split; [now apply CO|]. intros t Ht. apply Hmin. now apply CO. }
  split.
  - destruct dslv as [x| |] eqn:Ex.
    + right. exact (Best x eq_refl).
    + left. rewrite E', EpA. now split.
    + left. rewrite E', EpA. now split.
  - intros Hc (t & Ht & Hm).
    destruct (dslv_complete argsort argsort_ok solver (length pm) nl nk (4 * length data) X wts y
                (d_X_diag c) qs (cons_b c true ++ cons_movers_S) Hv Hs' stk obj unst Hobj
                (stk_ext_m nl nk c) Hun Hc) as [x Ex].
    + exists t. split; [now apply CO|]. intros t' Ht'. apply Hm. now apply CO.
    + exact (Best x Ex).
Qed.

(* when every rho is 0 or -1, it is the fit of the variances *)
Lemma S_code_fit A Ab t :
  neg_square (R12 p) -> neg_square (R43 p) -> neg_square (R32m p) ->
  S_code A Ab t = weighted nl (mover_var_fit p A Ab (fst t) (snd t)) data qi
                  + dridge (d_X_diag c) nl nk pm (fst t) (snd t).
Proof.
  unfold neg_square. intros N1 N4 N3. unfold S_code. f_equal. unfold weighted. f_equal.
  rewrite !map2_combine. apply map_ext. intros [o row]. cbn [fst snd].
  apply sumn_ext. intros l _. f_equal. rewrite !sumn_S, sumn_0.
  unfold mover_var_fit. cbn [meps mpart mvar]. rewrite Rplus_0_l.
  change (mean1 (dset_A (A, Ab) p)) with (mean1 p). change (mean3 (dset_A (A, Ab) p)) with (mean3 p).
  change (mean4 (dset_A (A, Ab) p)) with (mean4 p).
  cbn [dset_A dA dAb fst snd].
  assert (Q : forall u m m' v, m = m' -> sqdev u m v = sqdev u m' v) by (intros; subst; reflexivity).
  apply (f_equal2 Rplus); [apply (f_equal2 Rplus); [apply (f_equal2 Rplus)|]|]; apply Q;
    unfold dvar1, dvar3, dvar4, dvar2; try ring; rewrite <- ?N1, <- ?N3, <- ?N4; ring.
Qed.
End MoverVar.
