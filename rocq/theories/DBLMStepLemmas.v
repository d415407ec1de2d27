(* The M-step of the dynamic model as a constrained weighted least-squares fit. *)
From Verif Require Import Base BaseLemmas UtilModel UtilSpec ConsModel ConsSpec ConsQPLemmas
  ConsLemmas ConsBuild2Lemmas ConsPropLemmas BLMModel BLMEMModel BLMSpec BLMSortLemmas BLMFitModel BLMFitSpec
  BLMFitLemmas DBLMModel DBLMSpec DBLMRegLemmas.
From Coq Require Import Permutation Sorted.
Local Open Scope res_scope.
Local Open Scope R_scope.

(* ---- rows ---- *)
Lemma nth_rows {A} (m : nat) (f : nat -> A -> R) (data : list A) a i o :
  (a < m)%nat -> nth_error data i = Some o ->
  nth (a * length data + i) (flat_map (fun a => map (f a) data) (range m)) 0 = f a o.
Proof.
  intros Ha Hi. assert (L : (i < length data)%nat) by (apply nth_error_Some; congruence).
  rewrite (nth_flat_const _ _ (length data) a i 0%nat); auto.
  - rewrite nth_range by exact Ha. rewrite (nth_map_in _ _ _ o) by exact L.
    f_equal. now apply nth_error_nth.
  - intros. apply map_length.
  - now rewrite length_range.
Qed.

Lemma nth_weights m qi l v (data : list dobs) a i o row :
  length qi = length data -> (a < m)%nat ->
  nth_error data i = Some o -> nth_error qi i = Some row ->
  nth (a * length data + i) (weights m qi l (flat_map (fun a => map (v a) data) (range m))) 0
  = nth l row 0 / sqrt (v a o).
Proof.
  intros Hq Ha Hi Hr.
  assert (L : (i < length data)%nat) by (apply nth_error_Some; congruence).
  unfold weights. rewrite (nth_map2 _ _ _ _ 0 0).
  - rewrite <- Hq at 1. rewrite (nth_rows m (fun _ row => nth l row 0) qi a i row Ha Hr).
    now rewrite (nth_rows m v data a i o Ha Hi).
  - rewrite (length_flat_const _ _ (length data)); [rewrite length_range; nia|].
    intros. now rewrite map_length.
  - rewrite (length_flat_const _ _ (length data)); [rewrite length_range; nia|].
    intros. now rewrite map_length.
Qed.

Lemma rsum_map2_nth (f : dobs -> list R -> R) data qi g :
  length qi = length data ->
  (forall i o row, nth_error data i = Some o -> nth_error qi i = Some row -> g i = f o row) ->
  sumn (length data) g = rsum (map2 f data qi).
Proof.
  intros Hq H. rewrite rsum_nth, length_map2 by now symmetry. apply sumn_ext. intros i Hi.
  destruct (nth_error data i) as [o|] eqn:Eo; [|apply nth_error_None in Eo; lia].
  destruct (nth_error qi i) as [row|] eqn:Er; [|apply nth_error_None in Er; lia].
  rewrite (nth_map2 _ _ _ _ o row) by lia.
  rewrite (nth_error_nth _ _ _ Eo), (nth_error_nth _ _ _ Er). now apply H.
Qed.

(* the weighted sum of squares over the stacked rows, row by row *)
Lemma stacked_rows nl m (data : list dobs) qi (v yy : nat -> nat -> dobs -> R) (F : nat -> nat -> R)
    (f : nat -> nat -> dobs -> R) :
  length qi = length data ->
  (forall l a i o, (l < nl)%nat -> (a < m)%nat -> nth_error data i = Some o ->
     F l (a * length data + i)%nat = f l a o) ->
  sumn nl (fun l => sumn (m * length data) (fun r =>
    nth r (weights m qi l (flat_map (fun a => map (v l a) data) (range m))) 0
    * (nth r (flat_map (fun a => map (yy l a) data) (range m)) 0 - F l r) ^ 2))
  = weighted nl (fun o l => sumn m (fun a => sqdev (yy l a o) (f l a o) (v l a o))) data qi.
Proof.
  intros Hq HF. unfold weighted.
  rewrite <- (rsum_map2_nth _ data qi (fun i => sumn nl (fun l => sumn m (fun a =>
    nth (a * length data + i) (weights m qi l (flat_map (fun a => map (v l a) data) (range m))) 0
    * (nth (a * length data + i) (flat_map (fun a => map (yy l a) data) (range m)) 0
       - F l (a * length data + i)%nat) ^ 2))) Hq).
  - symmetry. rewrite sumn_swap. apply sumn_ext. intros l Hl. rewrite sumn_mul. apply sumn_swap.
  - intros i o row Ho Hr. apply sumn_ext. intros l Hl. rewrite <- sumn_scal. apply sumn_ext.
    intros a Ha. rewrite (nth_weights _ _ _ _ _ _ _ _ _ Hq Ha Ho Hr), (nth_rows _ _ _ _ _ _ Ha Ho).
    rewrite (HF l a i o Hl Ha Ho). unfold sqdev, Rdiv. ring.
Qed.

(* ---- the regressors of the movers ---- *)
Lemma ind_sum nk g (x : nat -> R) c : (g < nk)%nat ->
  sumn nk (fun k => c * (if (g =? k)%nat then 1 else 0) * x k) = c * x g.
Proof.
  intros Hg. rewrite (sumn_single nk g); [rewrite Nat.eqb_refl; ring|exact Hg|].
  intros k _ Hne. destruct (Nat.eqb_spec g k); [congruence|ring].
Qed.
Lemma ind_entry g (data : list dobs) i o k : nth_error data i = Some o ->
  indicators g data i k = if (g o =? k)%nat then 1 else 0.
Proof. intros H. unfold indicators. now rewrite H. Qed.

(* coefficient and firm type of the regressor of period t in equation a *)
Definition mcoef (e s : bool) (p : dpar) (a t : nat) : R :=
  match a, t with
  | 0%nat, 0%nat => 1 | 0%nat, 2%nat => - R12 p
  | 1%nat, 2%nat => 1 | 1%nat, 4%nat => if e then 1 else 0
  | 2%nat, 2%nat => - R32m p | 2%nat, 3%nat => 1
  | 2%nat, 4%nat => if e then - R32m p else if s then 1 else 0
  | 2%nat, 5%nat => if e then if s then 1 else 0 else 0
  | 3%nat, 1%nat => 1 | 3%nat, 3%nat => - R43 p
  | _, _ => 0
  end.
Definition mfirm (e : bool) (o : dobs) (a t : nat) : nat :=
  match a, t with
  | 0%nat, _ => dg1 o
  | 1%nat, 2%nat => dg1 o | 1%nat, _ => dg4 o
  | 2%nat, 2%nat => dg1 o | 2%nat, 3%nat => dg4 o
  | 2%nat, 4%nat => if e then dg4 o else dg1 o
  | 2%nat, _ => dg1 o
  | _, _ => dg4 o
  end.

Lemma X_movers_entry nk e s p data a t i o k :
  nth_error data i = Some o -> (k < nk)%nat -> (a < 4)%nat -> (t < 6)%nat ->
  X_movers nk e s p data (a * length data + i)%nat (t * nk + k)%nat
  = mcoef e s p a t * (if (mfirm e o a t =? k)%nat then 1 else 0).
Proof.
  intros Ho Hk Ha Ht.
  assert (L : (i < length data)%nat) by (apply nth_error_Some; congruence).
  unfold X_movers. cbv zeta.
  assert (a = 0 \/ a = 1 \/ a = 2 \/ a = 3)%nat as Ca by lia.
  assert (t = 0 \/ t = 1 \/ t = 2 \/ t = 3 \/ t = 4 \/ t = 5)%nat as Ct by lia.
  destruct Ca as [->|[->|[->| ->]]]; destruct Ct as [->|[->|[->|[->|[->| ->]]]]];
    destruct e, s; repeat (rewrite set_block_entry by assumption; cbn [Nat.eqb andb Nat.add]);
    unfold zero_mat, scale; rewrite ?(ind_entry _ _ _ _ _ Ho); cbn [mcoef mfirm];
    try ring; rewrite ?Rmult_0_l; reflexivity.
Qed.

Lemma fitted_movers nl nk np e s p data x a i o l :
  nth_error data i = Some o -> (dg1 o < nk)%nat -> (dg4 o < nk)%nat -> (a < 4)%nat -> (np <= 6)%nat ->
  fitted np nl nk (X_movers nk e s p data) x l (a * length data + i)%nat
  = sumn np (fun t => mcoef e s p a t * x (pidx nl nk t l (mfirm e o a t))).
Proof.
  intros Ho H1 H4 Ha Hn. unfold fitted. apply sumn_ext. intros t Ht.
  rewrite <- (ind_sum nk (mfirm e o a t) (fun k => x (pidx nl nk t l k))).
  - apply sumn_ext. intros k Hk. rewrite (X_movers_entry nk e s p data a t i o k Ho Hk) by lia. ring.
  - unfold mfirm. destruct a as [|[|[|]]]; destruct t as [|[|[|[|[|]]]]]; try assumption;
      destruct e; assumption.
Qed.

Lemma pidx_eff nl nk t l k (x : nat -> R) : x (pidx nl nk t l k) = eff nl nk x t l k.
Proof. unfold pidx, eff. f_equal. lia. Qed.

(* the expected wages of a mover, without the part that depends on wages *)
Definition mpart (p : dpar) (A : aper -> mat) (Ab : bper -> nat -> R) (l a : nat) (o : dobs) : R :=
  match a with
  | 0%nat => A T12 l (dg1 o) - R12 p * A T2ma l (dg1 o)
  | 1%nat => A T2ma l (dg1 o) + Ab T2mb (dg4 o)
  | 2%nat => A T3ma l (dg4 o) + Ab T3mb (dg1 o) - R32m p * (A T2ma l (dg1 o) + Ab T2mb (dg4 o))
  | _ => A T43 l (dg4 o) - R43 p * A T3ma l (dg4 o)
  end.

Lemma fitted_movers_stacked nl nk e s p data A Ab x a i o l :
  nth_error data i = Some o -> (dg1 o < nk)%nat -> (dg4 o < nk)%nat -> (a < 4)%nat -> (l < nl)%nat ->
  b_absent nk e s Ab -> dstacked nl nk (periods_movers e s) A Ab x ->
  fitted (length (periods_movers e s)) nl nk (X_movers nk e s p data) x l (a * length data + i)%nat
  = mpart p A Ab l a o.
Proof.
  intros Ho H1 H4 Ha Hl [B1 B2] Hx.
  rewrite (fitted_movers nl nk _ e s p data x a i o l Ho H1 H4 Ha) by (destruct e, s; cbn; lia).
  assert (P : forall t k, (k < nk)%nat -> match nth_error (periods_movers e s) t with
             | Some u => x (pidx nl nk t l k) = period_value A Ab u l k | None => True end).
  { intros t k Hk. destruct (nth_error (periods_movers e s) t) as [u|] eqn:E; [|exact I].
    rewrite pidx_eff. now apply (Hx t u). }
  assert (Ca : (a = 0 \/ a = 1 \/ a = 2 \/ a = 3)%nat) by lia.
  destruct e, s; cbn [periods_movers app length nth_error] in P |- *;
    rewrite ?sumn_S, ?sumn_0;
    destruct Ca as [->|[->|[->| ->]]]; cbn [mcoef mfirm mpart];
    pose proof (P 0%nat _ H1) as P01; pose proof (P 0%nat _ H4) as P04;
    pose proof (P 1%nat _ H1) as P11; pose proof (P 1%nat _ H4) as P14;
    pose proof (P 2%nat _ H1) as P21; pose proof (P 2%nat _ H4) as P24;
    pose proof (P 3%nat _ H1) as P31; pose proof (P 3%nat _ H4) as P34;
    pose proof (P 4%nat _ H1) as P41; pose proof (P 4%nat _ H4) as P44;
    pose proof (P 5%nat _ H1) as P51; pose proof (P 5%nat _ H4) as P54;
    cbn [periods_movers app nth_error period_value] in *;
    rewrite ?P01, ?P04, ?P11, ?P14, ?P21, ?P24, ?P31, ?P34, ?P41, ?P44, ?P51, ?P54;
    rewrite ?(B1 eq_refl _ H4), ?(B2 eq_refl _ H1); ring.
Qed.

(* the variance of the wage of equation a *)
Definition mvar (p : dpar) (l a : nat) (o : dobs) : R :=
  match a with
  | 0%nat => dvar1 p (sq (dS p)) o l
  | 1%nat => dvar2 (sq (dS p)) (sqb (dSb p)) o l
  | 2%nat => dvar3 p (sq (dS p)) (sqb (dSb p)) o l
  | _ => dvar4 p (sq (dS p)) o l
  end.
Definition mwage (p : dpar) (a : nat) (o : dobs) : R :=
  match a with
  | 0%nat => dy1 o - R12 p * dy2 o
  | 1%nat => dy2 o
  | 2%nat => dy3 o - R32m p * dy2 o
  | _ => dy4 o - R43 p * dy3 o
  end.

Lemma var_movers_rows p data l :
  var_movers p data l = flat_map (fun a => map (mvar p l a) data) (range 4).
Proof.
  unfold var_movers, range. cbn [seq flat_map]. rewrite app_nil_r.
  apply f_equal2; [|apply f_equal2; [|apply f_equal2]]; apply map_ext; intros o; unfold mvar, dvar1, dvar4, dvar3, dvar2, sq, sqb; ring.
Qed.
Lemma Y_movers_rows p data : Y_movers p data = flat_map (fun a => map (mwage p a) data) (range 4).
Proof. unfold Y_movers, range. cbn [seq flat_map]. now rewrite app_nil_r. Qed.

(* vectors stacking the same values give the same ridge *)
Lemma ridge_stacked nl nk ts A Ab x :
  dstacked nl nk ts A Ab x ->
  sumn nl (fun l => sumn (length ts) (fun t => sumn nk (fun k => x (pidx nl nk t l k) ^ 2)))
  = rsum (map (fun t => sumn nl (fun l => sumn nk (fun k => period_value A Ab t l k ^ 2))) ts).
Proof.
  intros H. rewrite sumn_swap, rsum_nth, map_length. apply sumn_ext. intros i Hi.
  destruct (nth_error ts i) as [t|] eqn:E; [|apply nth_error_None in E; lia].
  rewrite (nth_map_in _ _ _ t) by exact Hi. rewrite (nth_error_nth _ _ _ E).
  apply sumn_ext. intros l Hl. apply sumn_ext. intros k Hk.
  rewrite pidx_eff. now rewrite (H i t l k E Hl Hk).
Qed.

Section Movers.
Variables (nl nk : nat) (e s : bool) (p : dpar) (data : list dobs) (qi : list (list R)) (d : R).
Hypothesis firms : forall o, In o data -> (dg1 o < nk)%nat /\ (dg4 o < nk)%nat.
Hypothesis rows : length qi = length data.
Let pm := periods_movers e s.
Let X := X_movers nk e s p data.
Let wts := fun l => weights 4 qi l (var_movers p data l).

Lemma wss_movers_gen (yy : nat -> nat -> dobs -> R) (y : nat -> list R) A Ab x :
  (forall l, y l = flat_map (fun a => map (yy l a) data) (range 4)) ->
  b_absent nk e s Ab -> dstacked nl nk pm A Ab x ->
  wss (length pm) nl nk (4 * length data) X wts y d x
  = weighted nl (fun o l => sumn 4 (fun a => sqdev (yy l a o) (mpart p A Ab l a o) (mvar p l a o)))
      data qi + dridge d nl nk pm A Ab.
Proof.
  intros Hy Hb Hx. unfold wss, dridge. rewrite (ridge_stacked nl nk pm A Ab x Hx). f_equal.
  unfold wts.
  rewrite (sumn_ext nl _ (fun l => sumn (4 * length data) (fun r =>
    nth r (weights 4 qi l (flat_map (fun a => map (mvar p l a) data) (range 4))) 0
    * (nth r (flat_map (fun a => map (yy l a) data) (range 4)) 0
       - fitted (length pm) nl nk X x l r) ^ 2))).
  2:{ intros l _. now rewrite var_movers_rows, Hy. }
  apply (stacked_rows nl 4 data qi (mvar p) yy
            (fitted (length pm) nl nk X x) (mpart p A Ab) rows).
  intros l a i o Hl Ha Ho. destruct (firms o (nth_error_In _ _ Ho)) as [H1 H4].
  now apply fitted_movers_stacked.
Qed.

Lemma wss_movers A Ab x :
  b_absent nk e s Ab -> dstacked nl nk pm A Ab x ->
  wss (length pm) nl nk (4 * length data) X wts (fun _ => Y_movers p data) d x
  = weighted nl (mover_fit p A Ab) data qi + dridge d nl nk pm A Ab.
Proof.
  intros Hb Hx.
  rewrite (wss_movers_gen (fun _ => mwage p) (fun _ => Y_movers p data) A Ab x) by
    (try assumption; intros; apply Y_movers_rows).
  f_equal. unfold weighted. f_equal. rewrite !map2_combine. apply map_ext. intros [o row]. cbn [fst snd].
  apply sumn_ext. intros l _. f_equal. rewrite !sumn_S, sumn_0.
  unfold mover_fit, sqdev, mean1, mean3, mean4, mean2. cbn [mwage mpart mvar].
  assert (Q : forall u u' v, u = u' -> u ^ 2 / v = u' ^ 2 / v) by (intros; subst; reflexivity).
  rewrite Rplus_0_l. repeat (apply (f_equal2 Rplus); [|apply Q; ring]). apply Q; ring.
Qed.
End Movers.

(* ---- storing and the constraints ---- *)
Lemma adds_accepts_n nt nl nk css :
  (forall o, In o (concat css) -> valid nt nl nk o) ->
  exists s, run (map OpAdd css) (qp_init nl nk) = Ok s /\
    forall x, accepts s x <-> demands nl nk (concat css) x.
Proof.
  intros Hv.
  destruct (run_accepts (nt * nl * nk) nl nk (map OpAdd css)) as (s & E & H).
  { apply Forall_forall. intros o Ho. apply in_map_iff in Ho as (cs & <- & Hcs). cbn [op_ok].
    intros c Hc. apply valid_buildable. apply Hv. apply in_concat. eauto. }
  exists s. split; [exact E|]. intros x. rewrite H.
  assert (CG : forall cs, ~ clears_G (OpAdd cs)) by (intros cs [e He]; discriminate).
  assert (CA : forall cs, ~ clears_A (OpAdd cs)) by (intros cs [e He]; discriminate).
  unfold demands. split.
  - intros [HG HA] o d Ho Ed. split.
    + apply HG. apply active_adds; eauto.
    + apply HA. apply active_adds; eauto.
  - intros Hs. split; intros d Hd; apply active_adds in Hd as (o & Ho & Ed); auto;
      destruct (Hs o d Ho Ed) as [HG HA]; assumption.
Qed.
Lemma accepts_feasible s x n : accepts s x <-> feasible (snd (solve false n s)) x.
Proof. split; [intros H; apply H|]. intros H m. exact H. Qed.

Definition nnt_b (c : dsettings) : list nat :=
  map fst (filter (fun ip => is_b (snd ip))
    (enumerate (periods_movers (endogeneity c) (state_dependence c)))).
Definition cons_b (c : dsettings) (for_movers : bool) : list cobj :=
  if (for_movers && (0 <? length (nnt_b c))%nat)%bool
  then [CNoWorkerTypeInteraction (Some (nnt_b c)) (length (periods_movers (endogeneity c) (state_dependence c)))]
  else [].
Definition dperiods (c : dsettings) (for_movers : bool) : list dper :=
  if for_movers then periods_movers (endogeneity c) (state_dependence c) else periods_update_stayers.

Lemma dgen_constraints_ok nl nk c m :
  (0 < nl)%nat ->
  (forall o, In o (dcons_a c ++ dcons_a_all c ++ dcons_s c ++ dcons_s_all c) ->
     valid (length (dperiods c m)) nl nk o) ->
  exists qa qs, dgen_constraints nl nk c m = Ok (qa, qs) /\
    (forall x, accepts qa x <-> demands nl nk (cons_b c m ++ dcons_a c ++ dcons_a_all c) x) /\
    (forall x, accepts qs x <-> demands nl nk
       (CBoundedBelow (ds_lower_bound c) (length (dperiods c m)) :: cons_b c m ++ dcons_s c ++ dcons_s_all c) x).
Proof.
  intros Hnl Hv. set (nt := length (dperiods c m)) in *.
  assert (Hb : forall o, In o (cons_b c m) -> valid nt nl nk o).
  { unfold cons_b, nt, dperiods. destruct m; cbn [andb]; [|intros o []].
    destruct (0 <? length (nnt_b c))%nat; [|intros o []].
    intros o [<-|[]]. cbn [valid]. split; [reflexivity|]. split; [lia|]. cbn [periods].
    unfold in_periods, nnt_b. destruct (endogeneity c), (state_dependence c); cbn; intros t Ht;
      intuition lia. }
  destruct (adds_accepts_n nt nl nk [cons_b c m; dcons_a c; dcons_a_all c]) as (qa & Ea & Ha).
  { cbn [concat]. rewrite app_nil_r. intros o Ho. apply in_app_or in Ho as [Ho|Ho]; [auto|].
    apply Hv. rewrite app_assoc. apply in_or_app. now left. }
  destruct (adds_accepts_n nt nl nk [[CBoundedBelow (ds_lower_bound c) nt]; cons_b c m; dcons_s c; dcons_s_all c])
    as (qs & Es & Hs).
  { cbn [concat]. rewrite app_nil_r. intros o [<-|Ho]; [reflexivity|].
    cbn [app] in Ho. apply in_app_or in Ho as [Ho|Ho]; [auto|].
    apply Hv. apply in_or_app. right. apply in_or_app. now right. }
  cbn [concat] in Ha, Hs. rewrite app_nil_r in Ha, Hs. cbn [app] in Hs.
  exists qa, qs. split; [|split; assumption].
  unfold run in Ea, Es. cbn [map for_each step] in Ea, Es.
  unfold dgen_constraints.
  set (nb := if (m && (endogeneity c || state_dependence c))%bool then _ else _).
  assert (Eb : (if (0 <? length nb)%nat then [CNoWorkerTypeInteraction (Some nb)
      (if m then length (periods_movers (endogeneity c) (state_dependence c)) else length periods_update_stayers)]
      else []) = cons_b c m).
  { unfold nb, cons_b, nnt_b. destruct m; [|reflexivity].
    destruct (endogeneity c), (state_dependence c); reflexivity. }
  rewrite Eb.
  assert (En : (if m then length (periods_movers (endogeneity c) (state_dependence c))
                else length periods_update_stayers) = nt) by (unfold nt, dperiods; now destruct m).
  rewrite En. clear Eb En nb.
  destruct (add_constraints [CBoundedBelow (ds_lower_bound c) nt] (qp_init nl nk)) as [q1|]; [|discriminate].
  cbn [bind] in Es |- *.
  destruct (add_constraints (cons_b c m) (qp_init nl nk)) as [q2|]; [|discriminate].
  cbn [bind] in Ea |- *.
  destruct (add_constraints (cons_b c m) q1) as [q3|]; [|discriminate]. cbn [bind] in Es |- *.
  destruct (add_constraints (dcons_a c) q2) as [q4|]; [|discriminate]. cbn [bind] in Ea |- *.
  destruct (add_constraints (dcons_a_all c) q4) as [q5|]; [|discriminate]. cbn [bind] in Ea |- *.
  destruct (add_constraints (dcons_s c) q3) as [q6|]; [|discriminate]. cbn [bind] in Es |- *.
  destruct (add_constraints (dcons_s_all c) q6) as [q7|]; [|discriminate]. cbn [bind] in Es |- *.
  injection Ea as ->. injection Es as ->. reflexivity.
Qed.

Lemma sat_ext n d x x' : cons_wf n d -> (forall i, (i < n)%nat -> x i = x' i) -> sat d x -> sat d x'.
Proof.
  intros [W1 W2] E [H1 H2].
  assert (Q : forall m r, nc m = n -> rowdot m r x' = rowdot m r x).
  { intros m r Hm. unfold rowdot. apply sumn_ext. intros j Hj. rewrite E; [reflexivity|lia]. }
  split.
  - destruct (c_G d) as [[G h]|]; [|exact I]. destruct W1 as [W1 _]. intros r Hr.
    rewrite Q by exact W1. auto.
  - destruct (c_A d) as [[G h]|]; [|exact I]. destruct W2 as [W2 _]. intros r Hr.
    rewrite Q by exact W2. auto.
Qed.
Lemma demands_ext nt nl nk cs x x' :
  (forall o, In o cs -> valid nt nl nk o) -> (forall i, (i < nt * nl * nk)%nat -> x i = x' i) ->
  demands nl nk cs x -> demands nl nk cs x'.
Proof.
  intros Hv E H o d Ho Ed. destruct (valid_buildable nt nl nk o (Hv o Ho)) as (d' & Ed' & W).
  rewrite Ed in Ed'. injection Ed' as <-. eapply sat_ext; eauto.
Qed.

(* ---- a step of the solver ---- *)
Section Step.
Variable argsort : list R -> list nat.
Hypothesis argsort_ok : forall l, is_argsort l (argsort l).
Variable solver : nat -> mat -> list R -> problem -> qpres.
Hypothesis exact : dexact solver.
Variables (np nl nk nr : nat) (X : mat) (wts y : nat -> list R) (d : R) (qa : qp) (cs : list cobj).
Hypothesis cs_valid : forall o, In o cs -> valid np nl nk o.
Hypothesis qa_cs : forall x, accepts qa x <-> demands nl nk cs x.
Context {T : Type} (stk : T -> (nat -> R) -> Prop) (obj : T -> R) (unst : list R -> T).
Let N := (nl * (nk * np))%nat.
Hypothesis obj_wss : forall t x, stk t x -> wss np nl nk nr X wts y d x = obj t.
Hypothesis stk_ext : forall t x x', (forall i, (i < N)%nat -> x i = x' i) -> stk t x -> stk t x'.
Hypothesis stk_unst : forall x, length x = N -> demands nl nk cs (fun i => nth i x 0) ->
  stk (unst x) (fun i => nth i x 0).

Definition can (t : T) : Prop := exists x, stk t x /\ demands nl nk cs x.
Let dslv := dsolve argsort solver nl nk np (XwX nr (nk * np) nl X wts d) (Xwv nr (nk * np) nl X wts y) qa.

Lemma dslv_sound x : dslv = QSol x ->
  length x = N /\ can (unst x) /\ stk (unst x) (fun i => nth i x 0) /\
  demands nl nk cs (fun i => nth i x 0) /\
  forall t, can t -> obj (unst x) <= obj t.
Proof.
  intros E. unfold dslv, dsolve in E. apply exact in E. destruct E as (L & F & M).
  destruct (X_order_spec np nl nk argsort argsort_ok) as (Lo & _ & _).
  rewrite Lo in L. fold N in L.
  assert (D : demands nl nk cs (fun i => nth i x 0)) by (apply qa_cs; intros n; exact F).
  assert (S : stk (unst x) (fun i => nth i x 0)) by (apply stk_unst; assumption).
  split; [exact L|]. split; [exists (fun i => nth i x 0); now split|]. split; [exact S|]. split; [exact D|].
  intros t (z & Hz & Dz).
  rewrite <- (obj_wss _ _ S), <- (obj_wss _ _ Hz).
  assert (Fz : feasible (snd (solve false (length (X_order argsort np nl nk)) qa)) z)
    by (apply qa_cs in Dz; apply Dz).
  specialize (M z Fz).
  rewrite <- !(reg_objective np nl nk nr X wts y d argsort argsort_ok). cbv zeta. lra.
Qed.

Lemma dslv_complete : dcomplete solver ->
  (exists t, can t /\ forall t', can t' -> obj t <= obj t') -> exists x, dslv = QSol x.
Proof.
  intros C (t & (x & Hx & Dx) & M).
  destruct (X_order_spec np nl nk argsort argsort_ok) as (Lo & _ & _).
  unfold dslv, dsolve. apply (C _ _ _ _ (map x (range N))).
  assert (E : forall i, (i < N)%nat -> x i = nth i (map x (range N)) 0).
  { intros i Hi. rewrite (nth_map_in _ _ _ 0%nat) by (now rewrite length_range). now rewrite nth_range. }
  assert (Dl : demands nl nk cs (fun i => nth i (map x (range N)) 0)).
  { apply (demands_ext np nl nk cs x); auto. intros i Hi. apply E. unfold N.
    replace (nl * (nk * np))%nat with (np * nl * nk)%nat by ring. exact Hi. }
  split; [|split].
  - rewrite Lo. rewrite map_length, length_range. reflexivity.
  - apply qa_cs in Dl. apply Dl.
  - intros z Fz.
    assert (Dz : demands nl nk cs z) by (apply qa_cs; intros n; exact Fz).
    assert (Hl : stk t (fun i => nth i (map x (range N)) 0)) by (apply (stk_ext t x); auto).
    assert (Ez : forall i, (i < N)%nat -> z i = nth i (map z (range N)) 0).
    { intros i Hi. rewrite (nth_map_in _ _ _ 0%nat) by (now rewrite length_range). now rewrite nth_range. }
    assert (Dz' : demands nl nk cs (fun i => nth i (map z (range N)) 0)).
    { apply (demands_ext np nl nk cs z); auto. intros i Hi. apply Ez. unfold N.
      replace (nl * (nk * np))%nat with (np * nl * nk)%nat by ring. exact Hi. }
    assert (Sz : stk (unst (map z (range N))) z).
    { apply (stk_ext _ (fun i => nth i (map z (range N)) 0)); [intros; symmetry; now apply Ez|].
      apply stk_unst; [now rewrite map_length, length_range|exact Dz']. }
    assert (Q : obj t <= obj (unst (map z (range N)))) by (apply M; exists z; now split).
    rewrite <- (obj_wss _ _ Hl), <- (obj_wss _ _ Sz) in Q.
    rewrite <- !(reg_objective np nl nk nr X wts y d argsort argsort_ok) in Q. cbv zeta in Q.
    lra.
Qed.
End Step.

(* ---- the effects of the movers ---- *)
Lemma store_movers nl nk e s f x A0 Ab0 :
  let T := store nl nk f (periods_movers e s) x (A0, Ab0) in
  (forall i a l k, nth_error (periods_movers e s) i = Some (PA a) ->
     fst T a l k = f (nth (pidx nl nk i l k) x 0)) /\
  (forall i b k, nth_error (periods_movers e s) i = Some (PB b) ->
     snd T b k = f (nth (pidx nl nk i 0 k) x 0)) /\
  (e = false -> snd T T2mb = Ab0 T2mb) /\ (s = false -> snd T T3mb = Ab0 T3mb) /\
  fst T T2s = A0 T2s /\ fst T T3s = A0 T3s.
Proof.
  cbv zeta. split; [|split; [|split; [|split; [|split]]]].
  - intros i a l k H. destruct e, s;
      do 7 (destruct i as [|i]; cbn [periods_movers app nth_error] in H;
            [try discriminate H; injection H as <-; reflexivity|]); destruct i; discriminate H.
  - intros i b k H. destruct e, s;
      do 7 (destruct i as [|i]; cbn [periods_movers app nth_error] in H;
            [try discriminate H; injection H as <-; reflexivity|]); destruct i; discriminate H.
  - intros ->. destruct s; reflexivity.
  - intros ->. destruct e; reflexivity.
  - destruct e, s; reflexivity.
  - destruct e, s; reflexivity.
Qed.

Section MoverStep.
Variable argsort : list R -> list nat.
Hypothesis argsort_ok : forall l, is_argsort l (argsort l).
Variable solver : nat -> mat -> list R -> problem -> qpres.
Hypothesis exact : dexact solver.
Variables (nl nk : nat) (c : dsettings) (data : list dobs) (qi : list (list R)) (p : dpar).
Hypothesis nl_pos : (0 < nl)%nat.
Hypothesis firms : forall o, In o data -> (dg1 o < nk)%nat /\ (dg4 o < nk)%nat.
Hypothesis rows : length qi = length data.
Let e := endogeneity c.
Let s := state_dependence c.
Let pm := periods_movers e s.
Hypothesis cons_valid : forall o, In o (dcons_a c ++ dcons_a_all c ++ dcons_s c ++ dcons_s_all c) ->
  valid (length pm) nl nk o.

Definition tbl : Type := ((aper -> mat) * (bper -> nat -> R))%type.
Let stk (t : tbl) (x : nat -> R) : Prop := dstacked nl nk pm (fst t) (snd t) x /\ b_absent nk e s (snd t).

Lemma cons_b_spec x : demands nl nk (cons_b c true) x <->
  forall i b l l' k, nth_error pm i = Some (PB b) -> (k < nk)%nat -> (l < nl)%nat -> (l' < nl)%nat ->
    eff nl nk x i l k = eff nl nk x i l' k.
Proof.
  clear argsort_ok exact firms rows cons_valid solver argsort data qi p.
  assert (I : forall i, In i (nnt_b c) <-> exists b, nth_error pm i = Some (PB b)).
  { intros i. unfold nnt_b, pm, e, s.
    destruct (endogeneity c), (state_dependence c); cbn [periods_movers app enumerate length seq combine
      filter is_b snd map fst In]; (split; [|intros [b Hb];
      do 7 (destruct i as [|i]; cbn [nth_error] in Hb; [try discriminate Hb; tauto|]);
      destruct i; discriminate Hb]);
    intros H; repeat destruct H as [<-|H]; try destruct H; eexists; reflexivity. }
  unfold cons_b. cbn [andb].
  destruct (0 <? length (nnt_b c))%nat eqn:E0.
  - destruct (NoWTI_spec (nnt_b c) (length pm) nl nk) as (d & Ed & _ & Hd).
    + lia.
    + intros i Hi. apply I in Hi as [b Hb]. apply nth_error_Some. congruence.
    + split.
      * intros H i b l l' k Hb Hk Hl Hl'.
        assert (Hs : sat d x) by (apply (H _ d (or_introl eq_refl)); exact Ed).
        rewrite Hd in Hs. apply Hs; auto. apply I. eauto.
      * intros H o d' [<-|[]] Ed'.
        assert (Ed2 : NoWorkerTypeInteraction (nnt_b c) (length pm) nl nk = Ok d') by exact Ed'.
        rewrite Ed in Ed2. injection Ed2 as <-. apply Hd.
        intros t k l l' Ht Hk Hl Hl'. apply I in Ht as [b Hb]. eauto.
  - split; [|intros _ o d []]. intros _ i b l l' k Hb. exfalso.
    assert (Hi : In i (nnt_b c)) by (apply I; eauto).
    destruct (nnt_b c); [destruct Hi|discriminate E0].
Qed.

Lemma stk_cons_b t x : stk t x -> demands nl nk (cons_b c true) x.
Proof.
  intros [H _]. apply cons_b_spec. intros i b l l' k Hb Hk Hl Hl'.
  rewrite (H i _ l k Hb Hl Hk), (H i _ l' k Hb Hl' Hk). reflexivity.
Qed.

Lemma stk_ext_m t x x' :
  (forall i, (i < nl * (nk * length pm))%nat -> x i = x' i) -> stk t x -> stk t x'.
Proof.
  intros E [H B]. split; [|exact B]. intros i u l k Hu Hl Hk.
  rewrite <- (H i u l k Hu Hl Hk), <- !pidx_eff. symmetry. apply E. apply pidx_lt; auto.
  apply nth_error_Some. congruence.
Qed.

(* storing a vector that satisfies the constraints on the 'b' periods *)
Lemma stk_store A0 Ab0 x :
  b_absent nk e s Ab0 -> demands nl nk (cons_b c true) (fun i => nth i x 0) ->
  stk (store nl nk (fun r => r) pm x (A0, Ab0)) (fun i => nth i x 0).
Proof.
  intros [B1 B2] D. destruct (store_movers nl nk e s (fun r => r) x A0 Ab0) as (S1 & S2 & S3 & S4 & _).
  fold pm in S1, S2, S3, S4. split.
  - intros i u l k Hu Hl Hk. destruct u as [a|b]; cbn [period_value].
    + rewrite (S1 i a l k Hu). rewrite <- pidx_eff. reflexivity.
    + rewrite (S2 i b k Hu). rewrite (proj1 (cons_b_spec _) D i b l 0%nat k Hu Hk Hl nl_pos).
      rewrite <- pidx_eff. reflexivity.
  - split; intros Q k Hk.
    + rewrite S3 by exact Q. auto.
    + rewrite S4 by exact Q. auto.
Qed.

Definition cons_movers_A : list cobj := dcons_a c ++ dcons_a_all c.

Lemma can_allowed cs t :
  can nl nk (cons_b c true ++ cs) stk t <-> dallowed nl nk pm cs (fst t) (snd t) /\ b_absent nk e s (snd t).
Proof.
  split.
  - intros (x & [H B] & D). split; [|exact B]. exists x. split; [exact H|].
    intros o d Ho. apply D. apply in_or_app. now right.
  - intros [(x & H & D) B]. exists x. split; [now split|].
    intros o d Ho Ed. apply in_app_or in Ho as [Ho|Ho]; [|now apply (D o d)].
    apply (stk_cons_b t x (conj H B) o d Ho Ed).
Qed.

Definition A_objective (q : dpar) (B : aper -> mat) (Bb : bper -> nat -> R) : R :=
  weighted nl (mover_fit q B Bb) data qi + dridge (d_X_diag c) nl nk pm B Bb.
Definition A_best (B : aper -> mat) (Bb : bper -> nat -> R) : Prop :=
  dallowed nl nk pm cons_movers_A B Bb /\ b_absent nk e s Bb /\
  forall C Cb, dallowed nl nk pm cons_movers_A C Cb -> b_absent nk e s Cb ->
    A_objective p B Bb <= A_objective p C Cb.

Lemma A_step cons :
  dgen_constraints nl nk c true = Ok cons -> b_absent nk e s (dAb p) -> up_a c = true ->
  let p' := update_AS argsort solver nl nk c cons data qi p in
  (dA p' = dA p /\ dAb p' = dAb p \/ A_best (dA p') (dAb p')) /\
  (dcomplete solver -> (exists B Bb, A_best B Bb) -> A_best (dA p') (dAb p')).
Proof.
  intros Ec Hb Hu p'.
  destruct (dgen_constraints_ok nl nk c true nl_pos cons_valid) as (qa & qs & Eg & Ha & _).
  rewrite Ec in Eg. injection Eg as ->.
  assert (Hv : forall o, In o (cons_b c true ++ cons_movers_A) -> valid (length pm) nl nk o).
  { intros o Ho. apply in_app_or in Ho as [Ho|Ho].
    - revert Ho. unfold cons_b. cbn [andb]. destruct (0 <? length (nnt_b c))%nat; [|intros []].
      intros [<-|[]]. cbn [valid]. split; [reflexivity|]. split; [lia|]. cbn [periods].
      unfold in_periods, nnt_b, pm, e, s. destruct (endogeneity c), (state_dependence c); cbn; intros t Ht;
      intuition lia.
    - apply cons_valid. unfold cons_movers_A in Ho. apply in_app_or in Ho as [Ho|Ho];
        rewrite !in_app_iff; auto. }
  set (X := X_movers nk e s p data).
  set (wts := fun l => weights 4 qi l (var_movers p data l)).
  set (y := fun _ : nat => Y_movers p data).
  set (obj := fun t : tbl => A_objective p (fst t) (snd t)).
  set (unst := fun x => store nl nk (fun r => r) pm x (dA p, dAb p)).
  assert (Hobj : forall t x, stk t x -> wss (length pm) nl nk (4 * length data) X wts y (d_X_diag c) x = obj t).
  { intros [A Ab] x [H B]. apply wss_movers; assumption. }
  assert (Hun : forall x, length x = (nl * (nk * length pm))%nat ->
            demands nl nk (cons_b c true ++ cons_movers_A) (fun i => nth i x 0) ->
            stk (unst x) (fun i => nth i x 0)).
  { intros x _ D. apply stk_store; [exact Hb|]. intros o d Ho. apply D. apply in_or_app. now left. }
  set (dslv := dsolve argsort solver nl nk (length pm)
                 (XwX (4 * length data) (nk * length pm) nl X wts (d_X_diag c))
                 (Xwv (4 * length data) (nk * length pm) nl X wts y) qa).
  assert (EA : (dA p', dAb p') = match dslv with QSol x => unst x | _ => (dA p, dAb p) end).
  { unfold p', update_AS. rewrite Hu. cbn [fst snd]. fold e s pm.
    change (dsolve argsort solver nl nk (length pm) _ _ qa) with dslv.
    destruct (up_s c).
    - destruct (dsolve argsort solver nl nk (length pm) _ _ qs); destruct dslv; try reflexivity;
        symmetry; apply surjective_pairing.
    - destruct dslv; try reflexivity. symmetry; apply surjective_pairing. }
  assert (Best : forall x, dslv = QSol x -> A_best (dA p') (dAb p')).
  { intros x Ex. rewrite Ex in EA.
    destruct (dslv_sound argsort argsort_ok solver exact (length pm) nl nk (4 * length data) X wts y
                (d_X_diag c) qa (cons_b c true ++ cons_movers_A) Ha stk obj unst Hobj Hun x Ex)
      as (_ & Hcan & _ & _ & Hmin).
    apply can_allowed in Hcan as [Hall Habs].
    assert (E1 : dA p' = fst (unst x)) by (now rewrite <- EA).
    assert (E2 : dAb p' = snd (unst x)) by (now rewrite <- EA).
    unfold A_best. rewrite E1, E2. split; [exact Hall|]. split; [exact Habs|].
    intros C Cb HC HCb. apply (Hmin (C, Cb)). apply can_allowed. now split. }
  split.
  - destruct dslv as [x| |] eqn:Ex.
    + right. exact (Best x eq_refl).
    + left. injection EA as -> ->. now split.
    + left. injection EA as -> ->. now split.
  - intros Hc (B & Bb & HB1 & HB2 & HB3).
    destruct (dslv_complete argsort argsort_ok solver (length pm) nl nk (4 * length data) X wts y
                (d_X_diag c) qa (cons_b c true ++ cons_movers_A) Hv Ha stk obj unst Hobj stk_ext_m Hun Hc)
      as [x Ex].
    + exists (B, Bb). split; [apply can_allowed; now split|].
      intros [C Cb] HC. apply can_allowed in HC as [H1 H2]. now apply HB3.
    + exact (Best x Ex).
Qed.
End MoverStep.
