(* Effects and variances of the stayers; the updates of rho and of the proportions. *)
From Verif Require Import Base BaseLemmas UtilModel UtilSpec ConsModel ConsSpec ConsQPLemmas
  ConsLemmas ConsBuild2Lemmas ConsPropLemmas BLMModel BLMEMModel BLMSpec BLMSortLemmas BLMEMLemmas BLMFitModel BLMFitSpec
  BLMFitLemmas DBLMModel DBLMSpec DBLMRegLemmas DBLMStepLemmas DBLMStep2Lemmas.
From Coq Require Import Permutation Sorted.
Local Open Scope res_scope.
Local Open Scope R_scope.

Definition scoef (p : dpar) (a t : nat) : R :=
  match a, t with
  | 0%nat, 0%nat => 1 | 1%nat, 0%nat => - R32s p | 1%nat, 1%nat => 1
  | _, _ => 0
  end.
Lemma X_stayers_entry nk p data a t i o k :
  nth_error data i = Some o -> (k < nk)%nat -> (a < 2)%nat -> (t < 2)%nat ->
  X_stayers nk p data (a * length data + i)%nat (t * nk + k)%nat
  = scoef p a t * (if (dg1 o =? k)%nat then 1 else 0).
Proof.
  intros Ho Hk Ha Ht.
  assert (L : (i < length data)%nat) by (apply nth_error_Some; congruence).
  unfold X_stayers. cbv zeta.
  assert (a = 0 \/ a = 1)%nat as Ca by lia. assert (t = 0 \/ t = 1)%nat as Ct by lia.
  destruct Ca as [->| ->]; destruct Ct as [->| ->];
    repeat (rewrite set_block_entry by assumption; cbn [Nat.eqb andb Nat.add]);
    unfold zero_mat, scale; rewrite ?(ind_entry _ _ _ _ _ Ho); cbn [scoef];
    try ring; rewrite ?Rmult_0_l; reflexivity.
Qed.

Definition spart (p : dpar) (A : aper -> mat) (l a : nat) (o : dobs) : R :=
  match a with
  | 0%nat => A T2s l (dg1 o)
  | _ => A T3s l (dg1 o) - R32s p * A T2s l (dg1 o)
  end.
Definition svar (p : dpar) (l a : nat) (o : dobs) : R :=
  match a with
  | 0%nat => dS p T2s l (dg1 o) ^ 2
  | _ => svar3 p (sq (dS p)) o l
  end.
Definition swage (p : dpar) (a : nat) (o : dobs) : R :=
  match a with 0%nat => dy2 o | _ => dy3 o - R32s p * dy2 o end.
Definition seps (p : dpar) (l a : nat) (o : dobs) : R :=
  match a with
  | 0%nat => (dy2 o - dA p T2s l (dg1 o)) ^ 2
  | _ => (dy3 o - smean3 p (dA p) o l) ^ 2
  end.

Lemma fitted_stayers nl nk p data A Ab x a i o l :
  nth_error data i = Some o -> (dg1 o < nk)%nat -> (a < 2)%nat -> (l < nl)%nat ->
  dstacked nl nk periods_update_stayers A Ab x ->
  fitted 2 nl nk (X_stayers nk p data) x l (a * length data + i)%nat = spart p A l a o.
Proof.
  intros Ho H1 Ha Hl Hx. unfold fitted.
  rewrite (sumn_ext 2 _ (fun t => scoef p a t * x (pidx nl nk t l (dg1 o)))).
  2:{ intros t Ht. rewrite <- (ind_sum nk (dg1 o) (fun k => x (pidx nl nk t l k))) by exact H1.
      apply sumn_ext. intros k Hk. rewrite (X_stayers_entry nk p data a t i o k Ho Hk) by lia. ring. }
  rewrite !sumn_S, sumn_0, !pidx_eff.
  rewrite (Hx 0%nat (PA T2s) l (dg1 o) eq_refl Hl H1), (Hx 1%nat (PA T3s) l (dg1 o) eq_refl Hl H1).
  assert (a = 0 \/ a = 1)%nat as Ca by lia.
  destruct Ca as [->| ->]; cbn [scoef spart period_value]; ring.
Qed.

Lemma var_stayers_rows p data l :
  var_stayers p data l = flat_map (fun a => map (svar p l a) data) (range 2).
Proof.
  unfold var_stayers, range. cbn [seq flat_map]. rewrite app_nil_r.
  apply f_equal2; apply map_ext; intros o; unfold svar, svar3, sq; ring.
Qed.
Lemma Y_stayers_rows p data : Y_stayers p data = flat_map (fun a => map (swage p a) data) (range 2).
Proof. unfold Y_stayers, range. cbn [seq flat_map]. now rewrite app_nil_r. Qed.
Lemma eps_stayers_rows p data l :
  eps_stayers p data l = flat_map (fun a => map (seps p l a) data) (range 2).
Proof.
  unfold eps_stayers, range. cbn [seq flat_map]. rewrite app_nil_r.
  apply f_equal2; apply map_ext; intros o; unfold seps, smean3; f_equal; ring.
Qed.

Lemma store_stayers nl nk f x A0 Ab0 :
  let T := store nl nk f periods_update_stayers x (A0, Ab0) in
  (forall i a l k, nth_error periods_update_stayers i = Some (PA a) ->
     fst T a l k = f (nth (pidx nl nk i l k) x 0)) /\
  snd T = Ab0 /\ forall a, a <> T2s -> a <> T3s -> fst T a = A0 a.
Proof.
  cbv zeta. split; [|split].
  - intros i a l k H.
    do 3 (destruct i as [|i]; cbn [periods_update_stayers nth_error] in H;
          [try discriminate H; injection H as <-; reflexivity|]); destruct i; discriminate H.
  - reflexivity.
  - intros a H1 H2. destruct a; try congruence; reflexivity.
Qed.

Section StayerStep.
Variable argsort : list R -> list nat.
Hypothesis argsort_ok : forall l, is_argsort l (argsort l).
Variable solver : nat -> mat -> list R -> problem -> qpres.
Hypothesis exact : dexact solver.
Variables (nl nk : nat) (c : dsettings) (data : list dobs) (qi : list (list R)) (p : dpar).
Hypothesis nl_pos : (0 < nl)%nat.
Hypothesis firms : forall o, In o data -> (dg1 o < nk)%nat.
Hypothesis rows : length qi = length data.
Let pm := periods_update_stayers.
Hypothesis cons_valid : forall o, In o (dcons_a c ++ dcons_a_all c ++ dcons_s c ++ dcons_s_all c) ->
  valid 2 nl nk o.

Definition cons_stayers_A : list cobj := dcons_a c ++ dcons_a_all c.
Definition cons_stayers_S : list cobj :=
  CBoundedBelow (ds_lower_bound c) 2 :: dcons_s c ++ dcons_s_all c.
Let no_b : bper -> nat -> R := fun _ _ => 0.

Lemma wss_stayers_gen (yy : nat -> nat -> dobs -> R) (y : nat -> list R) A Ab x :
  (forall l, y l = flat_map (fun a => map (yy l a) data) (range 2)) ->
  dstacked nl nk pm A Ab x ->
  wss 2 nl nk (2 * length data) (X_stayers nk p data)
      (fun l => weights 2 qi l (var_stayers p data l)) y (d_X_diag_stayers c) x
  = weighted nl (fun o l => sumn 2 (fun a => sqdev (yy l a o) (spart p A l a o) (svar p l a o)))
      data qi + dridge (d_X_diag_stayers c) nl nk pm A Ab.
Proof.
  intros Hy Hx. unfold wss, dridge.
  pose proof (ridge_stacked nl nk pm A Ab x Hx) as RS. change (length pm) with 2%nat in RS.
  rewrite RS. f_equal.
  rewrite (sumn_ext nl _ (fun l => sumn (2 * length data) (fun r =>
    nth r (weights 2 qi l (flat_map (fun a => map (svar p l a) data) (range 2))) 0
    * (nth r (flat_map (fun a => map (yy l a) data) (range 2)) 0
       - fitted 2 nl nk (X_stayers nk p data) x l r) ^ 2))).
  2:{ intros l _. now rewrite var_stayers_rows, Hy. }
  apply (stacked_rows nl 2 data qi (svar p) yy
            (fitted 2 nl nk (X_stayers nk p data) x) (spart p A) rows).
  intros l a i o Hl Ha Ho. pose proof (firms o (nth_error_In _ _ Ho)) as H1.
  now apply (fitted_stayers nl nk p data A Ab).
Qed.

Definition sA_objective (B : aper -> mat) : R :=
  weighted nl (stayer_fit p B) data qi + dridge (d_X_diag_stayers c) nl nk pm B no_b.
Definition sA_best (B : aper -> mat) : Prop :=
  dallowed nl nk pm cons_stayers_A B no_b /\
  forall C, dallowed nl nk pm cons_stayers_A C no_b -> sA_objective B <= sA_objective C.

Let stk (t : aper -> mat) (x : nat -> R) : Prop := dstacked nl nk pm t no_b x.
Lemma stk_ext_s t x x' : (forall i, (i < nl * (nk * 2))%nat -> x i = x' i) -> stk t x -> stk t x'.
Proof.
  intros E H i u l k Hu Hl Hk.
  rewrite <- (H i u l k Hu Hl Hk), <- !pidx_eff. symmetry. apply E. apply pidx_lt; auto.
  change 2%nat with (length pm). apply nth_error_Some. congruence.
Qed.
Lemma gen_s cons : dgen_constraints nl nk c false = Ok cons ->
  (forall x, accepts (fst cons) x <-> demands nl nk cons_stayers_A x) /\
  (forall x, accepts (snd cons) x <-> demands nl nk cons_stayers_S x).
Proof.
  intros Ec. destruct (dgen_constraints_ok nl nk c false nl_pos cons_valid) as (qa & qs & Eg & Ha & Hs).
  rewrite Ec in Eg. injection Eg as ->. now split.
Qed.

Lemma sA_step cons :
  dgen_constraints nl nk c false = Ok cons -> up_a_stayers c = true ->
  let p' := update_AS_stayers argsort solver nl nk c cons data qi p in
  (dA p' = dA p \/ sA_best (dA p')) /\
  (dcomplete solver -> (exists B, sA_best B) -> sA_best (dA p')) /\
  (forall t, t <> T2s -> t <> T3s -> dA p' t = dA p t) /\ dAb p' = dAb p.
Proof.
  intros Ec Hu p'. destruct (gen_s cons Ec) as [Ha _]. destruct cons as [qa qs]. cbn [fst snd] in Ha.
  assert (Hv : forall o, In o cons_stayers_A -> valid 2 nl nk o).
  { intros o Ho. apply cons_valid. unfold cons_stayers_A in Ho. rewrite !in_app_iff in *. tauto. }
  set (X := X_stayers nk p data).
  set (wts := fun l => weights 2 qi l (var_stayers p data l)).
  set (y := fun _ : nat => Y_stayers p data).
  set (unst := fun x => fst (store nl nk (fun r => r) pm x (dA p, dAb p))).
  assert (Hobj : forall t x, stk t x ->
            wss 2 nl nk (2 * length data) X wts y (d_X_diag_stayers c) x = sA_objective t).
  { intros t x H. unfold sA_objective.
    etransitivity; [apply (wss_stayers_gen (fun _ => swage p) y t no_b x);
      [intros; apply Y_stayers_rows|exact H]|].
    f_equal. unfold weighted. f_equal. rewrite !map2_combine. apply map_ext. intros [o row]. cbn [fst snd].
    apply sumn_ext. intros l _. f_equal. rewrite !sumn_S, sumn_0.
    unfold stayer_fit, sqdev, smean3. cbn [swage spart svar].
    assert (Q : forall u u' v, u = u' -> u ^ 2 / v = u' ^ 2 / v) by (intros; subst; reflexivity).
    rewrite Rplus_0_l. apply (f_equal2 Rplus); apply Q; ring. }
  assert (Hun : forall x, length x = (nl * (nk * 2))%nat ->
            demands nl nk cons_stayers_A (fun i => nth i x 0) -> stk (unst x) (fun i => nth i x 0)).
  { intros x _ _. destruct (store_stayers nl nk (fun r => r) x (dA p) (dAb p)) as (S1 & _).
    intros i u l k Hu' Hl Hk. destruct u as [a|b].
    - cbn [period_value]. unfold unst, pm. rewrite (S1 i a l k Hu'). now rewrite <- pidx_eff.
    - exfalso. do 3 (destruct i as [|i]; cbn in Hu'; try discriminate Hu'). }
  set (dslv := dsolve argsort solver nl nk 2
                 (XwX (2 * length data) (nk * 2) nl X wts (d_X_diag_stayers c))
                 (Xwv (2 * length data) (nk * 2) nl X wts y) qa).
  assert (EA : (dA p', dAb p') = match dslv with
                 | QSol x => store nl nk (fun r => r) pm x (dA p, dAb p) | _ => (dA p, dAb p) end).
  { unfold p', update_AS_stayers. rewrite Hu. cbn [fst snd]. fold pm. cbn [pm periods_update_stayers length].
    change (dsolve argsort solver nl nk 2 _ _ qa) with dslv.
    destruct (up_s_stayers c).
    - destruct (dsolve argsort solver nl nk 2 _ _ qs); destruct dslv; try reflexivity;
        symmetry; apply surjective_pairing.
    - destruct dslv; reflexivity. }
  assert (Best : forall x, dslv = QSol x -> sA_best (dA p')).
  { intros x Ex. rewrite Ex in EA.
    destruct (dslv_sound argsort argsort_ok solver exact 2 nl nk (2 * length data) X wts y
                (d_X_diag_stayers c) qa cons_stayers_A Ha stk sA_objective unst Hobj Hun x Ex)
      as (_ & Hcan & _ & _ & Hmin).
    assert (E1 : dA p' = unst x) by (unfold unst; now rewrite <- EA).
    unfold sA_best. rewrite E1. split; [exact Hcan|].
    intros C HC. apply Hmin. exact HC. }
  split; [|split; [|split]].
  - destruct dslv as [x| |] eqn:Ex.
    + right. exact (Best x eq_refl).
    + left. now injection EA as -> _.
    + left. now injection EA as -> _.
  - intros Hc (B & HB1 & HB2).
    destruct (dslv_complete argsort argsort_ok solver 2 nl nk (2 * length data) X wts y
                (d_X_diag_stayers c) qa cons_stayers_A Hv Ha stk sA_objective unst Hobj stk_ext_s Hun Hc)
      as [x Ex].
    + exists B. split; [exact HB1|]. intros t' Ht'. now apply HB2.
    + exact (Best x Ex).
  - intros t H2 H3. destruct dslv as [x| |] eqn:Ex; [|now injection EA as -> _..].
    destruct (store_stayers nl nk (fun r => r) x (dA p) (dAb p)) as (_ & _ & S3).
    assert (E1 : dA p' = unst x) by (unfold unst; now rewrite <- EA).
    rewrite E1. unfold unst, pm. now apply S3.
  - destruct dslv as [x| |] eqn:Ex; [|now injection EA as _ ->..].
    destruct (store_stayers nl nk (fun r => r) x (dA p) (dAb p)) as (_ & S2 & _).
    transitivity (snd (store nl nk (fun r => r) pm x (dA p, dAb p))); [now rewrite <- EA|exact S2].
Qed.

(* variances *)
Hypothesis lb_nonneg : 0 <= ds_lower_bound c.
Definition sS_code (A : aper -> mat) (V : aper -> mat) : R :=
  weighted nl (fun o l => sumn 2 (fun a =>
    sqdev (seps (dset_A (A, dAb p) p) l a o) (spart p V l a o) (svar p l a o))) data qi
  + dridge (d_X_diag_stayers c) nl nk pm V no_b.
Definition sS_ok (V : aper -> mat) : Prop := dallowed nl nk pm cons_stayers_S V no_b.

Lemma sS_step_code cons :
  dgen_constraints nl nk c false = Ok cons -> up_s_stayers c = true ->
  let p' := update_AS_stayers argsort solver nl nk c cons data qi p in
  let v' := sq (dS p') in
  (dS p' = dS p \/
   sS_ok v' /\ (forall t, sS_ok t -> sS_code (dA p') v' <= sS_code (dA p') t)) /\
  (dcomplete solver ->
   (exists t, sS_ok t /\ forall t', sS_ok t' -> sS_code (dA p') t <= sS_code (dA p') t') ->
   sS_ok v' /\ (forall t, sS_ok t -> sS_code (dA p') v' <= sS_code (dA p') t)).
Proof.
  intros Ec Hu p' v'. destruct (gen_s cons Ec) as [_ Hs]. destruct cons as [qa qs]. cbn [fst snd] in Hs.
  assert (Hv : forall o, In o cons_stayers_S -> valid 2 nl nk o).
  { intros o [<-|Ho]; [reflexivity|]. apply cons_valid. rewrite !in_app_iff in *. tauto. }
  set (X := X_stayers nk p data).
  set (wts := fun l => weights 2 qi l (var_stayers p data l)).
  set (pA := if up_a_stayers c then match dsolve argsort solver nl nk 2
                 (XwX (2 * length data) (nk * 2) nl X wts (d_X_diag_stayers c))
                 (Xwv (2 * length data) (nk * 2) nl X wts (fun _ => Y_stayers p data)) qa with
                 | QSol x => dset_A (store nl nk (fun r => r) pm x (dA p, dAb p)) p
                 | _ => p end else p).
  assert (PA : exists A, pA = dset_A (A, dAb p) p).
  { unfold pA. destruct (up_a_stayers c); [|exists (dA p); now destruct p].
    destruct (dsolve _ _ _ _ _ _ _ _); [|exists (dA p); now destruct p..].
    exists (fst (store nl nk (fun r => r) pm x (dA p, dAb p))). reflexivity. }
  destruct PA as [tA EpA].
  set (y := eps_stayers pA data).
  set (dslv := dsolve argsort solver nl nk 2
                 (XwX (2 * length data) (nk * 2) nl X wts (d_X_diag_stayers c))
                 (Xwv (2 * length data) (nk * 2) nl X wts y) qs).
  assert (E' : p' = match dslv with
                    | QSol x => dset_S (store nl nk sqrt pm x (dS p, dSb p)) pA
                    | _ => pA end).
  { unfold p', update_AS_stayers. rewrite Hu. reflexivity. }
  assert (EA : dA p' = tA) by (rewrite E'; destruct dslv; rewrite EpA; reflexivity).
  rewrite EA.
  set (unst := fun x => sq (fst (store nl nk sqrt pm x (dS p, dSb p)))).
  assert (Hobj : forall t x, stk t x ->
            wss 2 nl nk (2 * length data) X wts y (d_X_diag_stayers c) x = sS_code tA t).
  { intros t x H. unfold sS_code.
    apply (wss_stayers_gen (seps (dset_A (tA, dAb p) p)) y t no_b x); [|exact H].
    intros l. unfold y. now rewrite EpA, eps_stayers_rows. }
  assert (Hun : forall x, length x = (nl * (nk * 2))%nat ->
            demands nl nk cons_stayers_S (fun i => nth i x 0) -> stk (unst x) (fun i => nth i x 0)).
  { intros x _ D.
    assert (D0 : forall t l k, (t < 2)%nat -> (l < nl)%nat -> (k < nk)%nat ->
                   0 <= nth (pidx nl nk t l k) x 0).
    { intros t l k Ht Hl Hk. pose proof (bounded_demand (ds_lower_bound c) 2 nl nk
        (fun i => nth i x 0) t l k) as Q.
      rewrite <- pidx_eff in Q. apply Rle_trans with (2 := Q ltac:(
        intros o d [<-|[]]; apply D; left; reflexivity) Ht Hl Hk).
      exact lb_nonneg. }
    destruct (store_stayers nl nk sqrt x (dS p) (dSb p)) as (S1 & _).
    intros i u l k Hu' Hl Hk.
    assert (Li : (i < 2)%nat) by (change 2%nat with (length pm); apply nth_error_Some; congruence).
    destruct u as [a|b].
    - cbn [period_value]. unfold unst, sq, pm. rewrite (S1 i a l k Hu').
      rewrite pow2_sqrt by now apply D0. now rewrite <- pidx_eff.
    - exfalso. do 3 (destruct i as [|i]; cbn in Hu'; try discriminate Hu'). }
  assert (Best : forall x, dslv = QSol x -> sS_ok v' /\
            forall t, sS_ok t -> sS_code tA v' <= sS_code tA t).
  { intros x Ex.
    destruct (dslv_sound argsort argsort_ok solver exact 2 nl nk (2 * length data) X wts y
                (d_X_diag_stayers c) qs cons_stayers_S Hs stk (sS_code tA) unst Hobj Hun x Ex)
      as (_ & Hcan & _ & _ & Hmin).
    assert (Ev : v' = unst x) by (unfold v'; rewrite E', Ex; reflexivity).
    rewrite Ev. split; [exact Hcan|]. intros t Ht. now apply Hmin. }
  split.
  - destruct dslv as [x| |] eqn:Ex.
    + right. exact (Best x eq_refl).
    + left. now rewrite E', EpA.
    + left. now rewrite E', EpA.
  - intros Hc (t & Ht & Hm).
    destruct (dslv_complete argsort argsort_ok solver 2 nl nk (2 * length data) X wts y
                (d_X_diag_stayers c) qs cons_stayers_S Hv Hs stk (sS_code tA) unst Hobj
                stk_ext_s Hun Hc) as [x Ex].
    + exists t. split; [exact Ht|]. intros t' Ht'. now apply Hm.
    + exact (Best x Ex).
Qed.
Lemma sS_code_fit A V :
  neg_square (R32s p) ->
  sS_code A V = weighted nl (stayer_var_fit p A V) data qi + dridge (d_X_diag_stayers c) nl nk pm V no_b.
Proof.
  unfold neg_square. intros N. unfold sS_code. f_equal. unfold weighted. f_equal.
  rewrite !map2_combine. apply map_ext. intros [o row]. cbn [fst snd].
  apply sumn_ext. intros l _. f_equal. rewrite !sumn_S, sumn_0.
  unfold stayer_var_fit. cbn [seps spart svar]. rewrite Rplus_0_l.
  change (smean3 (dset_A (A, dAb p) p)) with (smean3 p). cbn [dset_A dA fst].
  apply (f_equal2 Rplus); [reflexivity|].
  unfold sqdev. f_equal. f_equal. f_equal. unfold svar3. rewrite <- N. ring.
Qed.
End StayerStep.

(* ---- the update of rho ---- *)
Lemma rsum_flat_map {A} (f : A -> list R) l : rsum (flat_map f l) = rsum (map (fun a => rsum (f a)) l).
Proof. induction l as [|a l IH]; cbn; [reflexivity|]. now rewrite rsum_app, IH. Qed.
Lemma map2_app {A B C} (f : A -> B -> C) l1 l1' l2 l2' :
  length l1 = length l2 -> map2 f (l1 ++ l1') (l2 ++ l2') = map2 f l1 l2 ++ map2 f l1' l2'.
Proof.
  revert l2. induction l1 as [|a l1 IH]; intros [|b l2] H; cbn in *; try discriminate; [reflexivity|].
  now rewrite IH by lia.
Qed.
Lemma map2_flat {A B C D} (f : A -> B -> C) (g : D -> list A) (h : D -> list B) l :
  (forall d, In d l -> length (g d) = length (h d)) ->
  map2 f (flat_map g l) (flat_map h l) = flat_map (fun d => map2 f (g d) (h d)) l.
Proof.
  induction l as [|d l IH]; intros H; cbn; [reflexivity|].
  rewrite map2_app by (apply H; now left). now rewrite IH by (intros; apply H; now right).
Qed.
Lemma long_product nl data qi (X Y SS : nat -> dobs -> R) :
  length qi = length data ->
  rsum (map2 Rmult (map2 Rmult (long nl (fun l => map (X l) data))
          (long nl (fun l => map2 (fun o row => nth l row 0 / SS l o) data qi)))
        (long nl (fun l => map (Y l) data)))
  = weighted nl (fun o l => X l o * Y l o / SS l o) data qi.
Proof.
  intros Hl. unfold long.
  rewrite map2_flat by (intros; rewrite length_map2; rewrite ?map_length; lia).
  rewrite map2_flat by (intros; rewrite !length_map2; rewrite ?map_length; rewrite ?length_map2; lia).
  rewrite rsum_flat_map. unfold weighted.
  rewrite (map2_combine (fun o row => sumn nl (fun l => nth l row 0 * (X l o * Y l o / SS l o)))).
  rewrite (rsum_sumn_swap nl (fun (x : dobs * list R) l =>
     nth l (snd x) 0 * (X l (fst x) * Y l (fst x) / SS l (fst x))) (combine data qi)).
  unfold sumn, range. apply f_equal. apply map_ext. intros l. clear - Hl.
  revert qi Hl. induction data as [|o data IH]; intros [|row qi] Hl; cbn in *; try discriminate; [reflexivity|].
  rewrite IH by lia. f_equal. unfold Rdiv. ring.
Qed.

Definition reg_loss (nl : nat) (X Y SS : nat -> dobs -> R) (data : list dobs) (qi : list (list R)) (r : R) : R :=
  weighted nl (fun o l => (Y l o - r * X l o) ^ 2 / SS l o) data qi.
Lemma wls_minimiser nl data qi X Y SS :
  length qi = length data ->
  (forall o l, In o data -> (l < nl)%nat -> 0 < SS l o) ->
  (forall row l, In row qi -> (l < nl)%nat -> 0 <= nth l row 0) ->
  weighted nl (fun o l => X l o * X l o / SS l o) data qi <> 0 ->
  forall r, reg_loss nl X Y SS data qi (wls nl data qi X Y SS) <= reg_loss nl X Y SS data qi r
    /\ (reg_loss nl X Y SS data qi r = reg_loss nl X Y SS data qi (wls nl data qi X Y SS) ->
        r = wls nl data qi X Y SS).
Proof.
  intros Hl HS Hq Hne r.
  set (b := wls nl data qi X Y SS).
  set (P := weighted nl (fun o l => X l o * Y l o / SS l o) data qi).
  set (Q := weighted nl (fun o l => X l o * X l o / SS l o) data qi) in *.
  set (Z := weighted nl (fun o l => Y l o * Y l o / SS l o) data qi).
  assert (Eb : b = P / Q).
  { unfold b, wls. cbv zeta. unfold P, Q. now rewrite !long_product by exact Hl. }
  assert (E : forall r, reg_loss nl X Y SS data qi r = Z - 2 * r * P + r ^ 2 * Q).
  { intros q. unfold reg_loss, Z, P, Q, weighted. rewrite !map2_combine.
    induction (combine data qi) as [|x l IH]; cbn; [ring|]. cbn in IH. rewrite IH.
    rewrite (sumn_ext nl _ (fun l => nth l (snd x) 0 * (Y l (fst x) * Y l (fst x) / SS l (fst x))
       - 2 * q * (nth l (snd x) 0 * (X l (fst x) * Y l (fst x) / SS l (fst x)))
       + q ^ 2 * (nth l (snd x) 0 * (X l (fst x) * X l (fst x) / SS l (fst x))))).
    2:{ intros; unfold Rdiv; ring. }
    rewrite sumn_plus, sumn_minus, !sumn_scal. ring. }
  assert (HQ : 0 < Q).
  { assert (0 <= Q); [|lra]. unfold Q, weighted. rewrite map2_combine. apply rsum_nonneg.
    intros v Hv. apply in_map_iff in Hv as ([o row] & <- & Hin). cbn [fst snd].
    apply sumn_nonneg. intros l Hl'. apply Rmult_le_pos.
    - apply Hq; [eapply in_combine_r; eauto|exact Hl'].
    - apply Rmult_le_pos; [nra|]. apply Rlt_le, Rinv_0_lt_compat, HS; [eapply in_combine_l; eauto|exact Hl']. }
  assert (Eb' : b * Q = P) by (rewrite Eb; field; lra).
  assert (D : reg_loss nl X Y SS data qi r - reg_loss nl X Y SS data qi b = (r - b) ^ 2 * Q).
  { rewrite !E, <- Eb'. ring. }
  split.
  - assert (0 <= (r - b) ^ 2 * Q) by (apply Rmult_le_pos; [apply pow2_ge_0|lra]). lra.
  - intros H. assert (Z0 : (r - b) ^ 2 * Q = 0) by lra.
    apply Rmult_integral in Z0 as [Z0|Z0]; [|lra].
    destruct (Req_dec (r - b) 0) as [?|N]; [lra|]. exfalso. exact (pow_nonzero (r - b) 2 N Z0).
Qed.
