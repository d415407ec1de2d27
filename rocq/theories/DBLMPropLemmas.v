(* Cases and counterexamples for the properties of the dynamic BLM estimator. *)
From Verif Require Import Base BaseLemmas UtilModel UtilSpec ConsModel ConsSpec
  BLMModel BLMEMModel BLMSpec BLMSortLemmas BLMEMLemmas BLMAscendLemmas BLMFitModel BLMPropLemmas
  DBLMModel DBLMSpec DBLMEMSpec DBLMSortLemmas DBLMLikLemmas DBLMStepLemmas DBLMEMLemmas
  DBLMEM2Lemmas DBLMAscentLemmas.
From Coq Require Import Sorted ClassicalEpsilon.
Local Open Scope R_scope.

(* ---- a solver that is exact and complete ---- *)
Definition ideal_solver (n : nat) (P : mat) (q : list R) (pb : problem) : qpres :=
  match excluded_middle_informative (exists x, dsolution n P q pb x) with
  | left H => QSol (proj1_sig (constructive_indefinite_description _ H))
  | right _ => QNone
  end.
Lemma ideal_exact : dexact ideal_solver.
Proof.
  intros n P q pb x. unfold ideal_solver.
  destruct (excluded_middle_informative _) as [H|]; [|discriminate].
  intros E. injection E as <-. exact (proj2_sig (constructive_indefinite_description _ H)).
Qed.
Lemma ideal_complete : dcomplete ideal_solver.
Proof.
  intros n P q pb x Hx. unfold ideal_solver.
  destruct (excluded_middle_informative _) as [H|H]; [eexists; reflexivity|].
  exfalso. apply H. now exists x.
Qed.

(* ---- the effects of rho 0 and -1 ---- *)
Lemma plain_square r : plain r -> r ^ 2 = - r.
Proof. intros [->| ->]; ring. Qed.
Lemma V_loss_plain nl nk c data p A Ab V Vb :
  plain (R12 p) -> plain (R43 p) -> plain (R32m p) ->
  V_loss' nl nk c data p A Ab V Vb = V_loss nl nk c data p A Ab V Vb.
Proof.
  intros N1 N4 N3. apply plain_square in N1, N4, N3. unfold V_loss', V_loss. f_equal.
  unfold total. apply f_equal. apply map_ext. intros o. apply sumn_ext. intros l _. f_equal.
  unfold mover_var_fit', mover_var_fit.
  assert (Q : forall u m m' v, m = m' -> sqdev u m v = sqdev u m' v) by (intros; subst; reflexivity).
  apply (f_equal2 Rplus); [apply (f_equal2 Rplus); [apply (f_equal2 Rplus)|]|]; apply Q;
    unfold dvar1, dvar3, dvar4, dvar2; rewrite ?N1, ?N4, ?N3; ring.
Qed.
Lemma V_optimal_plain nl nk c data p A Ab V Vb :
  plain (R12 p) -> plain (R43 p) -> plain (R32m p) ->
  V_optimal' nl nk c data p A Ab V Vb <-> V_optimal nl nk c data p A Ab V Vb.
Proof.
  intros N1 N4 N3. unfold V_optimal', V_optimal.
  split; intros [H1 H2]; (split; [exact H1|]); intros W Wb HW; specialize (H2 W Wb HW);
    [rewrite <- !V_loss_plain by assumption|rewrite !V_loss_plain by assumption]; exact H2.
Qed.
Lemma Vs_optimal_plain nl nk c data p A V :
  plain (R32s p) -> Vs_optimal' nl nk c data p A V <-> Vs_optimal nl nk c data p A V.
Proof.
  intros N. apply plain_square in N.
  assert (L : forall V, Vs_loss' nl nk c data p A V = Vs_loss nl nk c data p A V).
  { intros W. unfold Vs_loss', Vs_loss. f_equal. unfold total. apply f_equal. apply map_ext.
    intros o. apply sumn_ext. intros l _. f_equal. unfold stayer_var_fit', stayer_var_fit.
    apply f_equal2; [reflexivity|]. unfold sqdev. do 3 f_equal. unfold svar3. rewrite N. ring. }
  unfold Vs_optimal', Vs_optimal.
  split; intros [H1 H2]; (split; [exact H1|]); intros W HW; specialize (H2 W HW);
    [rewrite <- !L|rewrite !L]; exact H2.
Qed.

(* ---- the likelihood can fall ---- *)
Definition w_data : list dobs := [mkdobs 0 0 1 0 0 0; mkdobs 0 0 (-1) 0 1 0].
Definition w_set : dsettings :=
  mkdset false false false false false false true false false false false false
    2 0 0 1 1 1 1 1 [] [] [] [].
Definition w_par : dpar :=
  mkdpar (fun t _ k => match t with T2ma => (match k with 0%nat => - (1/5) | _ => 1/5 end) | _ => 0 end)
    (fun _ _ => 0)
    (fun t _ _ => match t with T3ma => sqrt 3 | _ => 1 end) (fun _ _ => 0)
    (fun _ _ => 1) (fun _ _ => 1) (fun _ _ => 0) (fun _ => 0) 0 0 1 0.

(* the values the likelihood depends on *)
Record w_SR (p : dpar) : Prop := {
  w1 : forall k, (k < 2)%nat -> dS p T12 0%nat k = 1 /\ dS p T2ma 0%nat k = 1 /\ dS p T43 0%nat k = 1 /\
    dS p T3ma 0%nat k = sqrt 3;
  w2 : forall b k, (k < 2)%nat -> dSb p b k = 0;
  w3 : forall k1 k2, (k1 < 2)%nat -> (k2 < 2)%nat -> dpk1 p (k1 + 2 * k2)%nat 0%nat = 1;
  w4 : R12 p = 0 /\ R43 p = 0 /\ R32m p = 1 }.
Record w_A (p : dpar) : Prop := {
  a1 : forall k, (k < 2)%nat -> dA p T12 0%nat k = 0 /\ dA p T43 0%nat k = 0 /\ dA p T3ma 0%nat k = 0;
  a2 : dA p T2ma 0%nat 0%nat = - (1/5) /\ dA p T2ma 0%nat 1%nat = 1/5;
  a3 : forall b k, (k < 2)%nat -> dAb p b k = 0 }.

Lemma w_vars p o : w_SR p -> In o w_data ->
  dvar1 p (sq (dS p)) o 0%nat = 1 /\ dvar2 (sq (dS p)) (sqb (dSb p)) o 0%nat = 1 /\
  dvar3 p (sq (dS p)) (sqb (dSb p)) o 0%nat = 4 /\ dvar4 p (sq (dS p)) o 0%nat = 1.
Proof.
  intros [H1 H2 _ (E1 & E2 & E3)] Ho.
  assert (B : (dg1 o < 2)%nat /\ (dg4 o < 2)%nat) by (destruct Ho as [<-|[<-|[]]]; cbn; lia).
  destruct B as [B1 B2]. destruct (H1 _ B1) as (s1 & s2 & s3 & s4). destruct (H1 _ B2) as (t1 & t2 & t3 & t4).
  unfold dvar1, dvar3, dvar4, dvar2, sq, sqb. rewrite E1, E2, E3, s1, s2, t3, t4, !H2 by assumption.
  rewrite pow2_sqrt by lra. repeat split; ring.
Qed.
Lemma w_ok p o : w_SR p -> In o w_data -> dmover_ok 1 2 p o.
Proof.
  intros [H1 H2 H3 _] Ho.
  assert (B : (dg1 o < 2)%nat /\ (dg4 o < 2)%nat) by (destruct Ho as [<-|[<-|[]]]; cbn; lia).
  destruct B as [B1 B2]. split; [exact B1|]. split; [exact B2|]. intros l Hl.
  assert (l = 0)%nat as -> by lia. rewrite H3 by assumption.
  destruct (H1 _ B1) as (s1 & s2 & s3 & s4). destruct (H1 _ B2) as (t1 & t2 & t3 & t4).
  rewrite s1, s2, t3, t4. repeat split; try lra. apply sqrt_lt_R0. lra.
Qed.
Lemma w_posterior p o : w_SR p -> In o w_data -> mover_posterior 1 2 p o 0%nat = 1.
Proof.
  intros H Ho. pose proof (dmover_density_pos 1 2 p o 0%nat (w_ok p o H Ho) ltac:(lia)) as D.
  destruct (w_ok p o H Ho) as (_ & _ & Q). destruct (Q 0%nat ltac:(lia)) as [Q0 _].
  unfold mover_posterior, mixture_m, mixture. rewrite sumn_S, sumn_0, Rplus_0_l. field. split; lra.
Qed.

Definition w_penalty (A : aper -> mat) (Ab : bper -> nat -> R) (p : dpar) (o : dobs) : R :=
  (dy1 o - mean1 p A o 0%nat) ^ 2 / 2 + (dy2 o - mean2 A Ab o 0%nat) ^ 2 / 2
  + (dy3 o - mean3 p A Ab o 0%nat) ^ 2 / 8 + (dy4 o - mean4 p A o 0%nat) ^ 2 / 2.
Lemma sqrt_4 : sqrt 4 = 2.
Proof. replace 4 with (2 * 2) by ring. apply sqrt_square. lra. Qed.
Lemma w_loglik p : w_SR p ->
  dmovers_loglik 1 2 p w_data
  = - ln 2 - 4 * ln (sqrt (2 * PI)) - rsum (map (w_penalty (dA p) (dAb p) p) w_data) / 2.
Proof.
  intros H. unfold dmovers_loglik.
  rewrite (rsum_map_ext _ (fun o => - ln 2 - 4 * ln (sqrt (2 * PI)) - w_penalty (dA p) (dAb p) p o)).
  - unfold w_data. cbn [map rsum length]. cbn [INR]. field.
  - intros o Ho. destruct (w_vars p o H Ho) as (V1 & V2 & V3 & V4).
    assert (M : mixture_m 1 2 p o = dmover_density p o 0%nat).
    { unfold mixture_m, mixture. rewrite sumn_S, sumn_0.
      assert (B : (dg1 o < 2)%nat /\ (dg4 o < 2)%nat) by (destruct Ho as [<-|[<-|[]]]; cbn; lia).
      rewrite (w3 p H) by apply B. ring. }
    rewrite M. unfold dmover_density. rewrite V1, V2, V3, V4, sqrt_1, sqrt_4.
    assert (P : forall y m s, 0 < s -> 0 < normal_density y m s) by (intros; now apply normal_density_pos).
    rewrite !ln_mult; try (repeat (apply Rmult_lt_0_compat; [|apply P; lra]); apply P; lra).
    rewrite !ln_normal by lra. rewrite ln_1. unfold w_penalty. field.
Qed.

Lemma w_loss p B Bb : w_SR p -> A_feasible 1 2 w_set B Bb ->
  A_loss 1 2 w_set w_data p B Bb
  = B T12 0%nat 0%nat ^ 2 + B T12 0%nat 1%nat ^ 2 + 2 * B T43 0%nat 0%nat ^ 2
    + B T2ma 0%nat 0%nat ^ 2 + B T2ma 0%nat 1%nat ^ 2
    + (1 - B T3ma 0%nat 0%nat + B T2ma 0%nat 0%nat) ^ 2 / 2
    + (-1 - B T3ma 0%nat 0%nat + B T2ma 0%nat 1%nat) ^ 2 / 2.
Proof.
  intros H [_ [F1 F2]]. cbn [endogeneity state_dependence w_set] in F1, F2.
  unfold A_loss, dridge. cbn [d_X_diag w_set].
  rewrite Rmax_left by lra. rewrite Rmult_0_l, Rplus_0_r. unfold total.
  rewrite (rsum_map_ext _ (fun o => mover_fit p B Bb o 0%nat)).
  2:{ intros o Ho. rewrite sumn_S, sumn_0, w_posterior by assumption. ring. }
  unfold w_data. cbn [map rsum].
  assert (I1 : In (mkdobs 0 0 1 0 0 0) w_data) by (left; reflexivity).
  assert (I2 : In (mkdobs 0 0 (-1) 0 1 0) w_data) by (right; left; reflexivity).
  unfold mover_fit, sqdev.
  destruct (w_vars p _ H I1) as (-> & -> & -> & ->). destruct (w_vars p _ H I2) as (-> & -> & -> & ->).
  rewrite sqrt_1, sqrt_4. unfold mean1, mean3, mean4, mean2. cbn [dy1 dy2 dy3 dy4 dg1 dg4].
  destruct (w4 p H) as (-> & -> & ->).
  rewrite !F1, !F2 by (auto; lia). field.
Qed.

Lemma w_feasible A Ab : (forall b k, (k < 2)%nat -> Ab b k = 0) -> A_feasible 1 2 w_set A Ab.
Proof.
  intros H. split.
  - exists (fun i => period_value A Ab (nth (i / 2) (periods_movers false false) (PA T12)) 0%nat (i mod 2)%nat).
    split; [|intros o d []]. intros i t l k Hi Hl Hk. assert (l = 0)%nat as -> by lia.
    unfold eff. cbn [w_set endogeneity state_dependence] in Hi.
    replace (i * 1 * 2 + 0 * 2 + k)%nat with (k + i * 2)%nat by lia.
    rewrite Nat.div_add, Nat.mod_add by lia.
    rewrite Nat.div_small, Nat.mod_small by exact Hk. cbn [Nat.add].
    now rewrite (nth_error_nth _ _ (PA T12) Hi).
  - split; intros _ k Hk; now apply H.
Qed.

Lemma w_step p p' : w_SR p -> w_A p ->
  A_optimal 1 2 w_set w_data p (dA p') (dAb p') ->
  w_SR p' -> dmovers_loglik 1 2 p' w_data < dmovers_loglik 1 2 p w_data.
Proof.
  intros H HA [HF HO] H'.
  set (B := fun t (l k : nat) => match t with T2ma => (match k with 0%nat => - (1/3) | _ => 1/3 end) | _ => 0 end).
  specialize (HO B (fun _ _ => 0) (w_feasible B _ (fun _ _ _ => eq_refl))).
  rewrite (w_loss p B) in HO by (try exact H; apply w_feasible; auto).
  rewrite (w_loss p _ _ H HF) in HO. cbn [B] in HO.
  rewrite !w_loglik by assumption.
  assert (Ez : forall b k, (k < 2)%nat -> dAb p' b k = 0).
  { destruct HF as [_ [F1 F2]]. intros [|] k Hk; [now apply F1|now apply F2]. }
  set (x1 := dA p' T12 0%nat 0%nat) in *. set (x2 := dA p' T12 0%nat 1%nat) in *.
  set (x4 := dA p' T43 0%nat 0%nat) in *. set (a := dA p' T2ma 0%nat 0%nat) in *.
  set (b := dA p' T2ma 0%nat 1%nat) in *. set (cc := dA p' T3ma 0%nat 0%nat) in *.
  assert (E : x1 ^ 2 + x2 ^ 2 + 2 * x4 ^ 2 + a ^ 2 + b ^ 2 + (1 - cc + a) ^ 2 / 2 + (-1 - cc + b) ^ 2 / 2
    = 2 / 3 + (x1 ^ 2 + x2 ^ 2 + 2 * x4 ^ 2 + (a + 1/3) ^ 2 + (b - 1/3) ^ 2
               + (a + 1/3 - cc) ^ 2 / 2 + (b - 1/3 - cc) ^ 2 / 2)) by field.
  rewrite E in HO.
  assert (Z : x1 ^ 2 + x2 ^ 2 + 2 * x4 ^ 2 + (a + 1/3) ^ 2 + (b - 1/3) ^ 2
               + (a + 1/3 - cc) ^ 2 / 2 + (b - 1/3 - cc) ^ 2 / 2 <= 0) by lra.
  assert (Q : forall x, 0 <= x ^ 2) by (intros; apply pow2_ge_0).
  assert (Q0 : forall x, x ^ 2 <= 0 -> x = 0).
  { intros x Hx. destruct (Req_dec x 0) as [|Nz]; [assumption|]. exfalso.
    apply (pow_nonzero x 2 Nz). pose proof (Q x). lra. }
  pose proof (Q x1); pose proof (Q x2); pose proof (Q x4); pose proof (Q (a + 1/3)); pose proof (Q (b - 1/3));
  pose proof (Q (a + 1/3 - cc)); pose proof (Q (b - 1/3 - cc)).
  assert (Z1 : x1 = 0) by (apply Q0; lra). assert (Z2 : x2 = 0) by (apply Q0; lra).
  assert (Z4 : x4 = 0) by (apply Q0; lra). assert (Za : a + 1/3 = 0) by (apply Q0; lra).
  assert (Zb : b - 1/3 = 0) by (apply Q0; lra). assert (Zc : a + 1/3 - cc = 0) by (apply Q0; lra).
  assert (Ea : a = - (1/3)) by lra. assert (Eb : b = 1/3) by lra. assert (Ec : cc = 0) by lra.
  unfold w_data. cbn [map rsum]. unfold w_penalty, mean1, mean3, mean4, mean2. cbn [dy1 dy2 dy3 dy4 dg1 dg4].
  destruct (w4 p H) as (-> & -> & ->). destruct (w4 p' H') as (-> & -> & ->).
  rewrite !Ez by lia. fold x1 x2 x4 a b cc. rewrite Z1, Z2, Z4, Ea, Eb, Ec.
  destruct HA as [A1 (A2 & A3) A4]. rewrite !A4 by lia.
  destruct (A1 0%nat ltac:(lia)) as (-> & -> & ->). destruct (A1 1%nat ltac:(lia)) as (-> & _ & _).
  rewrite A2, A3. lra.
Qed.

Lemma falls_thm argsort solver pp :
  (forall l, is_argsort l (argsort l)) -> dexact solver -> dcomplete solver ->
  exists p' lik l0 l1,
    dfit_movers argsort solver pp 1 2 w_set false w_data w_par = Ok (p', lik, [l0; l1]) /\ l1 < l0 /\
    l0 = dmovers_loglik 1 2 w_par w_data.
Proof.
  intros Ha He Hc.
  assert (SR0 : w_SR w_par).
  { split; cbn; intros; auto. }
  assert (Hm : minv 1 2 w_set w_data w_par).
  { split; [intros o Ho; now apply w_ok|]. split; split; intros; reflexivity. }
  destruct (fit_movers_path argsort solver pp 1 2 w_set false w_data w_par Ha He) as
    (s0 & p0 & p1 & s1 & p2 & lik & ls & R0 & D0 & Hp & _ & _ & _ & Ef & _);
    [lia|intros o []|cbn [w_set ds_lower_bound]; lra|cbn [w_set dd_prior]; lra|discriminate|exact Hm|].
  assert (S0 : s0 0%nat = 0%nat) by (pose proof (relabelling_lt 1 s0 0 R0 ltac:(lia)); lia).
  assert (SR1 : w_SR p0).
  { split.
    - intros k Hk. rewrite !(dr_S _ _ _ _ _ _ D0) by lia. cbn. auto.
    - intros b k Hk. now rewrite (dr_Sb _ _ _ _ _ _ D0) by lia.
    - intros k1 k2 H1 H2. now rewrite (dr_pk1 _ _ _ _ _ _ D0) by lia.
    - destruct (dr_rho _ _ _ _ _ _ D0) as (-> & -> & -> & _). cbn. auto. }
  assert (WA : w_A p0).
  { split.
    - intros k Hk. rewrite !(dr_A _ _ _ _ _ _ D0) by lia. cbn. auto.
    - rewrite !(dr_A _ _ _ _ _ _ D0) by lia. cbn. auto.
    - intros b k Hk. now rewrite (dr_Ab _ _ _ _ _ _ D0) by lia. }
  assert (WA0 : w_A w_par) by (split; cbn; auto).
  assert (L0 : dmovers_loglik 1 2 p0 w_data = dmovers_loglik 1 2 w_par w_data).
  { rewrite !w_loglik by assumption. do 2 f_equal.
    destruct WA as [A1 (A2 & A3) A4]. destruct WA0 as [B1 (B2 & B3) B4].
    unfold w_data. cbn [map rsum]. unfold w_penalty, mean1, mean3, mean4, mean2. cbn [dy1 dy2 dy3 dy4 dg1 dg4].
    destruct (w4 p0 SR1) as (-> & -> & ->). destruct (w4 w_par SR0) as (-> & -> & ->).
    rewrite !A4, !B4 by lia.
    destruct (A1 0%nat ltac:(lia)) as (-> & -> & ->). destruct (A1 1%nat ltac:(lia)) as (-> & _ & _).
    destruct (B1 0%nat ltac:(lia)) as (-> & -> & ->). destruct (B1 1%nat ltac:(lia)) as (-> & _ & _).
    rewrite A2, A3, B2, B3. reflexivity. }
  assert (Rep : forall iter q, reported 1 2 w_set w_data iter q = dmovers_loglik 1 2 q w_data).
  { intros iter q. unfold reported. cbn [w_set up_pk1]. rewrite Bool.andb_false_r. ring. }
  cbn [w_set dn_iters] in Hp.
  inversion Hp as [| |n iter prev q q1 ls1 q2 Hs Hp1]; subst.
  inversion Hp1 as [|n iter l0 q Hlt|n iter prev q q2 ls2 q3 Hs2 Hp2]; subst.
  { exfalso. cbn [w_set dthreshold] in Hlt. pose proof (Rabs_pos (reported 1 2 w_set w_data 1 p1 - reported 1 2 w_set w_data 0 p0)). lra. }
  inversion Hp2; subst.
  exists p2, lik, (reported 1 2 w_set w_data 0 p0), (reported 1 2 w_set w_data 1 q1).
  split; [exact Ef|]. rewrite !Rep. split; [|exact L0].
  destruct Hs as [M1 M2 M3 M4 M5 M6 _ _]. cbn in M1, M2, M3, M4, M6. destruct M6 as [M6 M7].
  assert (SR2 : w_SR q1).
  { destruct SR1 as [W1 W2 W3 W4]. split; rewrite ?M1, ?M2, ?M3, ?M4, ?M6, ?M7; assumption. }
  apply (w_step p0 q1 SR1 WA); [|exact SR2].
  change (negb (rho_turn w_set 0) && up_a w_set)%bool with true in M5. destruct M5 as [_ M5].
  apply M5; [exact Hc|].
  set (B := fun t (l k : nat) => match t with T2ma => (match k with 0%nat => - (1/3) | _ => 1/3 end) | _ => 0 end).
  exists B, (fun _ _ => 0). split; [apply w_feasible; auto|]. intros C Cb HC.
  rewrite !w_loss by (try assumption; apply w_feasible; auto). cbn [B].
  set (x1 := C T12 0%nat 0%nat). set (x2 := C T12 0%nat 1%nat).
  set (x4 := C T43 0%nat 0%nat). set (a := C T2ma 0%nat 0%nat).
  set (b := C T2ma 0%nat 1%nat). set (cc := C T3ma 0%nat 0%nat).
  assert (E : x1 ^ 2 + x2 ^ 2 + 2 * x4 ^ 2 + a ^ 2 + b ^ 2 + (1 - cc + a) ^ 2 / 2 + (-1 - cc + b) ^ 2 / 2
    = 2 / 3 + (x1 ^ 2 + x2 ^ 2 + 2 * x4 ^ 2 + (a + 1/3) ^ 2 + (b - 1/3) ^ 2
               + (a + 1/3 - cc) ^ 2 / 2 + (b - 1/3 - cc) ^ 2 / 2)) by field.
  rewrite E.
  assert (Q : forall x, 0 <= x ^ 2) by (intros; apply pow2_ge_0).
  pose proof (Q x1); pose proof (Q x2); pose proof (Q x4); pose proof (Q (a + 1/3)); pose proof (Q (b - 1/3));
  pose proof (Q (a + 1/3 - cc)); pose proof (Q (b - 1/3 - cc)). lra.
Qed.

(* ---- the standard deviations of a fit with rho12 = 1 ---- *)
Definition u_data : list dobs := [mkdobs (1 + sqrt 2) 1 1 1 0 0].
Definition u_set : dsettings :=
  mkdset false false false false false false false true false false false false
    1 0 0 1 1 1 1 (1/100) [] [] [] [].
Definition u_par : dpar :=
  mkdpar (fun _ _ _ => 0) (fun _ _ => 0) (fun _ _ _ => 1) (fun _ _ => 0)
    (fun _ _ => 1) (fun _ _ => 1) (fun _ _ => 0) (fun _ => 0) 1 0 0 0.
Record u_like (p : dpar) : Prop := {
  u_A : forall t, dA p t 0%nat 0%nat = 0;
  u_Ab : forall b, dAb p b 0%nat = 0;
  u_S : forall t, dS p t 0%nat 0%nat = 1;
  u_Sb : forall b, dSb p b 0%nat = 0;
  u_pk : dpk1 p 0%nat 0%nat = 1;
  u_rho : R12 p = 1 /\ R43 p = 0 /\ R32m p = 0 }.
Lemma u_ok p o : u_like p -> In o u_data -> dmover_ok 1 1 p o.
Proof.
  intros [_ _ HS _ Hp _] [<-|[]]. cbn [dg1 dg4]. split; [cbn [dg1]; lia|]. split; [cbn [dg4]; lia|].
  intros l Hl. assert (l = 0)%nat as -> by lia. cbn [dg1 dg4 Nat.mul Nat.add].
  rewrite !HS, Hp. repeat split; lra.
Qed.
Lemma u_posterior p o : u_like p -> In o u_data -> mover_posterior 1 1 p o 0%nat = 1.
Proof.
  intros H Ho. pose proof (dmover_density_pos 1 1 p o 0%nat (u_ok p o H Ho) ltac:(lia)) as D.
  destruct (u_ok p o H Ho) as (_ & _ & Q). destruct (Q 0%nat ltac:(lia)) as [Q0 _].
  unfold mover_posterior, mixture_m, mixture. rewrite sumn_S, sumn_0, Rplus_0_l. field. split; lra.
Qed.
Lemma sqrt_2_square : sqrt 2 ^ 2 = 2.
Proof. apply pow2_sqrt. lra. Qed.
Lemma u_loss p A Ab V Vb : u_like p -> (forall t, A t 0%nat 0%nat = 0) -> (forall b, Ab b 0%nat = 0) ->
  (forall b, Vb b 0%nat = 0) ->
  V_loss 1 1 u_set u_data p A Ab V Vb
  = (2 - (V T12 0%nat 0%nat + V T2ma 0%nat 0%nat)) ^ 2 / sqrt 2 + (1 - V T2ma 0%nat 0%nat) ^ 2
    + (1 - V T3ma 0%nat 0%nat) ^ 2 + (1 - V T43 0%nat 0%nat) ^ 2 /\
  V_loss' 1 1 u_set u_data p A Ab V Vb
  = (2 - (V T12 0%nat 0%nat - V T2ma 0%nat 0%nat)) ^ 2 / sqrt 2 + (1 - V T2ma 0%nat 0%nat) ^ 2
    + (1 - V T3ma 0%nat 0%nat) ^ 2 + (1 - V T43 0%nat 0%nat) ^ 2.
Proof.
  intros H HA HAb HV.
  assert (Po := u_posterior p (mkdobs (1 + sqrt 2) 1 1 1 0 0) H (or_introl eq_refl)).
  destruct H as [_ _ HS HSb _ (r1 & r2 & r3)].
  pose proof sqrt_2_square as Q. pose proof (sqrt_lt_R0 2 ltac:(lra)) as P.
  unfold V_loss, V_loss', dridge. cbn [d_X_diag u_set]. rewrite Rmax_left by lra.
  rewrite !Rmult_0_l, !Rplus_0_r. unfold total, u_data. cbn [map rsum]. rewrite !sumn_S, !sumn_0, Po.
  unfold mover_var_fit, mover_var_fit', sqdev, dvar1, dvar3, dvar4, dvar2, mean1, mean3, mean4, mean2, sq, sqb.
  cbn [dy1 dy2 dy3 dy4 dg1 dg4]. rewrite r1, r2, r3, !HA, !HAb, !HV, !HS, !HSb.
  replace (1 ^ 2 + 1 ^ 2 * 1 ^ 2) with 2 by ring. replace (1 ^ 2 + 0 ^ 2) with 1 by ring.
  replace (1 + 0 ^ 2 * 1) with 1 by ring. replace (1 ^ 2 + 0 ^ 2 * 1 ^ 2) with 1 by ring.
  rewrite sqrt_1.
  assert (Y : (1 + sqrt 2 - (0 + 1 * (1 - 0))) ^ 2 = 2) by (transitivity (sqrt 2 ^ 2); [ring|exact Q]).
  rewrite Y.
  split; field; lra.
Qed.
Lemma u_feasible V Vb : (forall t, 1/100 <= V t 0%nat 0%nat) -> (forall b, Vb b 0%nat = 0) ->
  V_feasible 1 1 u_set V Vb.
Proof.
  intros HV Hb. split; [|split].
  - intros t l k Ht Hl Hk. assert (l = 0)%nat as -> by lia. assert (k = 0)%nat as -> by lia.
    cbn [u_set ds_lower_bound]. cbn in Ht. destruct Ht as [<-|[<-|[<-|[<-|[]]]]]; apply HV.
  - exists (fun i => period_value V Vb (nth i (periods_movers false false) (PA T12)) 0%nat 0%nat).
    split; [|intros o d []]. intros i t l k Hi Hl Hk.
    assert (l = 0)%nat as -> by lia. assert (k = 0)%nat as -> by lia.
    unfold eff. cbn [u_set endogeneity state_dependence] in Hi.
    replace (i * 1 * 1 + 0 * 1 + 0)%nat with i by lia.
    now rewrite (nth_error_nth _ _ (PA T12) Hi).
  - split; intros _ k Hk; assert (k = 0)%nat as -> by lia; apply Hb.
Qed.
Definition u_V : aper -> mat := fun t _ _ => match t with T12 => 3 | _ => 1 end.

Lemma overstated_thm argsort solver pp :
  (forall l, is_argsort l (argsort l)) -> dexact solver -> dcomplete solver ->
  exists p' lik ls,
    dfit_movers argsort solver pp 1 1 u_set false u_data u_par = Ok (p', lik, ls) /\
    V_feasible 1 1 u_set (sq (dS u_par)) (sqb (dSb u_par)) /\
    V_loss 1 1 u_set u_data u_par (dA u_par) (dAb u_par) (sq (dS u_par)) (sqb (dSb u_par)) = 0 /\
    0 < V_loss 1 1 u_set u_data u_par (dA p') (dAb p') (sq (dS p')) (sqb (dSb p')) /\
    dS u_par T12 0%nat 0%nat = 1 /\ dS p' T12 0%nat 0%nat ^ 2 = 3.
Proof.
  intros Ha He Hc.
  assert (U0 : u_like u_par).
  { split; intros; try reflexivity. repeat split; reflexivity. }
  assert (Hm : minv 1 1 u_set u_data u_par).
  { split; [intros o Ho; now apply u_ok|]. split; split; intros; reflexivity. }
  destruct (fit_movers_path argsort solver pp 1 1 u_set false u_data u_par Ha He) as
    (s0 & p0 & p1 & s1 & p2 & lik & ls & R0 & D0 & Hp & R1 & D1 & _ & Ef & _);
    [lia|intros o []|cbn [u_set ds_lower_bound]; lra|cbn [u_set dd_prior]; lra|discriminate|exact Hm|].
  assert (S0 : s0 0%nat = 0%nat) by (pose proof (relabelling_lt 1 s0 0 R0 ltac:(lia)); lia).
  assert (S1 : s1 0%nat = 0%nat) by (pose proof (relabelling_lt 1 s1 0 R1 ltac:(lia)); lia).
  assert (U1 : u_like p0).
  { split.
    - intros t. rewrite (dr_A _ _ _ _ _ _ D0) by lia. reflexivity.
    - intros b. rewrite (dr_Ab _ _ _ _ _ _ D0) by lia. reflexivity.
    - intros t. rewrite (dr_S _ _ _ _ _ _ D0) by lia. reflexivity.
    - intros b. rewrite (dr_Sb _ _ _ _ _ _ D0) by lia. reflexivity.
    - pose proof (dr_pk1 _ _ _ _ _ _ D0 0%nat 0%nat 0%nat ltac:(lia) ltac:(lia) ltac:(lia)) as E.
      exact E.
    - destruct (dr_rho _ _ _ _ _ _ D0) as (-> & -> & -> & _). repeat split; reflexivity. }
  cbn [u_set dn_iters] in Hp. inversion Hp as [| |n iter prev q q1 ls1 q2 Hs Hp1]; subst.
  inversion Hp1; subst. clear Hp1 Hp.
  destruct Hs as [_ _ _ _ M5 M6 _ _].
  change (negb (rho_turn u_set 0) && up_a u_set)%bool with false in M5.
  change (negb (rho_turn u_set 0) && up_s u_set)%bool with true in M6. cbv iota in M5, M6.
  destruct M5 as [M5 M5']. destruct M6 as [_ M6]. rewrite M5, M5' in M6.
  pose proof (sqrt_lt_R0 2 ltac:(lra)) as Ps.
  assert (Q : forall x, 0 <= x ^ 2) by (intros; apply pow2_ge_0).
  assert (Q2 : forall x, 0 <= x ^ 2 / sqrt 2).
  { intros x. apply Rmult_le_pos; [apply Q|]. left. now apply Rinv_0_lt_compat. }
  assert (FV : forall V Vb, V_feasible 1 1 u_set V Vb -> forall b, Vb b 0%nat = 0).
  { intros V Vb (_ & _ & F1 & F2) [|]; [now apply F1; [|lia]|now apply F2; [|lia]]. }
  assert (LV : forall V Vb, V_feasible 1 1 u_set V Vb ->
            V_loss' 1 1 u_set u_data p0 (dA p0) (dAb p0) V Vb
            = (2 - (V T12 0%nat 0%nat - V T2ma 0%nat 0%nat)) ^ 2 / sqrt 2 + (1 - V T2ma 0%nat 0%nat) ^ 2
              + (1 - V T3ma 0%nat 0%nat) ^ 2 + (1 - V T43 0%nat 0%nat) ^ 2).
  { intros V Vb F. apply u_loss; [exact U1|apply U1|apply U1|eapply FV; exact F]. }
  assert (Fu : V_feasible 1 1 u_set u_V (fun _ _ => 0)).
  { apply u_feasible; [intros [| | | | |]; cbn [u_V]; lra|reflexivity]. }
  assert (Lu : V_loss' 1 1 u_set u_data p0 (dA p0) (dAb p0) u_V (fun _ _ => 0) = 0).
  { rewrite LV by exact Fu. cbn [u_V]. field. lra. }
  specialize (M6 Hc). destruct M6 as [F6 O6].
  { exists u_V, (fun _ _ => 0). split; [exact Fu|]. intros W Wb HW. rewrite Lu, (LV W Wb HW).
    pose proof (Q2 (2 - (W T12 0%nat 0%nat - W T2ma 0%nat 0%nat))).
    pose proof (Q (1 - W T2ma 0%nat 0%nat)). pose proof (Q (1 - W T3ma 0%nat 0%nat)).
    pose proof (Q (1 - W T43 0%nat 0%nat)). lra. }
  specialize (O6 u_V (fun _ _ => 0) Fu). rewrite Lu, (LV _ _ F6) in O6.
  set (V := sq (dS p1)) in *.
  assert (Z : (2 - (V T12 0%nat 0%nat - V T2ma 0%nat 0%nat)) ^ 2 / sqrt 2 = 0 /\ (1 - V T2ma 0%nat 0%nat) ^ 2 = 0).
  { pose proof (Q2 (2 - (V T12 0%nat 0%nat - V T2ma 0%nat 0%nat))).
    pose proof (Q (1 - V T2ma 0%nat 0%nat)). pose proof (Q (1 - V T3ma 0%nat 0%nat)).
    pose proof (Q (1 - V T43 0%nat 0%nat)). lra. }
  assert (Q0 : forall x, x ^ 2 = 0 -> x = 0).
  { intros x Hx. destruct (Req_dec x 0) as [|Nz]; [assumption|]. now destruct (pow_nonzero x 2 Nz). }
  destruct Z as [Z1 Z2]. apply Q0 in Z2.
  assert (Z3 : 2 - (V T12 0%nat 0%nat - V T2ma 0%nat 0%nat) = 0).
  { apply Q0. apply (Rmult_eq_reg_r (/ sqrt 2)); [|apply Rinv_neq_0_compat; lra]. unfold Rdiv in Z1. lra. }
  assert (ES : forall t, dS p2 t 0%nat 0%nat = dS p1 t 0%nat 0%nat).
  { intros t. rewrite (dr_S _ _ _ _ _ _ D1) by lia. now rewrite S1. }
  exists p2, lik, [reported 1 1 u_set u_data 0 p0]. split; [exact Ef|].
  assert (F0 : V_feasible 1 1 u_set (sq (dS u_par)) (sqb (dSb u_par))).
  { apply u_feasible; intros; unfold sq, sqb; cbn [u_par dS dSb]; lra. }
  split; [exact F0|].
  destruct (u_loss u_par (dA u_par) (dAb u_par) (sq (dS u_par)) (sqb (dSb u_par)) U0) as [-> _];
    [reflexivity|reflexivity|intros; unfold sqb; cbn [u_par dSb]; ring|].
  split; [unfold sq; cbn [u_par dS]; field; lra|].
  assert (EA : forall t, dA p2 t 0%nat 0%nat = 0).
  { intros t. rewrite (dr_A _ _ _ _ _ _ D1), S1, M5 by lia. apply U1. }
  assert (EB : forall b, dAb p2 b 0%nat = 0).
  { intros t. rewrite (dr_Ab _ _ _ _ _ _ D1), M5' by lia. apply U1. }
  assert (EV : forall b, sqb (dSb p2) b 0%nat = 0).
  { intros b. unfold sqb. rewrite (dr_Sb _ _ _ _ _ _ D1) by lia. apply (FV _ _ F6 b). }
  destruct (u_loss u_par (dA p2) (dAb p2) (sq (dS p2)) (sqb (dSb p2)) U0 EA EB EV) as [-> _].
  assert (EW : forall t, sq (dS p2) t 0%nat 0%nat = V t 0%nat 0%nat).
  { intros t. unfold sq, V. now rewrite ES. }
  rewrite !EW. split; [|split; [reflexivity|]].
  - assert (V T2ma 0%nat 0%nat = 1) as -> by lra. assert (V T12 0%nat 0%nat = 3) as -> by lra.
    pose proof (Q (1 - V T3ma 0%nat 0%nat)). pose proof (Q (1 - V T43 0%nat 0%nat)).
    assert (0 < (2 - (3 + 1)) ^ 2 / sqrt 2) by (apply Rdiv_lt_0_compat; lra).
    lra.
  - fold (sq (dS p2) T12 0%nat 0%nat). rewrite EW. lra.
Qed.

(* ---- pairs of firm types without movers, firm types without stayers ---- *)
Local Open Scope res_scope.
Lemma unobserved_movers argsort solver pp nl nk c compute_NNm data p k1 k2 :
  (forall l, is_argsort l (argsort l)) -> (0 < nl)%nat ->
  (forall o, In o (dcons_a c ++ dcons_a_all c ++ dcons_s c ++ dcons_s_all c) ->
     valid (length (periods_movers (endogeneity c) (state_dependence c))) nl nk o) ->
  up_pk1 c = true -> (0 < dn_iters c)%nat -> (forall o, In o data -> dmover_ok nl nk p o) ->
  (k1 < nk)%nat -> (k2 < nk)%nat -> (forall o, In o data -> ~ (dg1 o = k1 /\ dg4 o = k2)) ->
  dfit_movers argsort solver pp nl nk c compute_NNm data p = Err ValueError.
Proof.
  intros Ha Hnl Hv Hu Hn Hok Hk1 Hk2 Hno.
  destruct (dsort_spec argsort Ha pp nl nk false false p) as (s0 & t0 & Rs0 & _ & T0 & D0 & _).
  set (p0 := dsort_parameters argsort pp nl nk false false p) in *.
  destruct (dgen_constraints_ok nl nk c true Hnl Hv) as (qa & qs & Ec & _).
  unfold dfit_movers. fold p0. rewrite Ec. cbn [bind].
  destruct (dn_iters c) as [|n]; [lia|]. cbn [dmovers_loop].
  assert (Hok0 : forall o, In o data -> dmover_ok nl nk p0 o).
  { intros o Ho. destruct (Hok o Ho) as (H1 & H2 & H3). split; [exact H1|]. split; [exact H2|]. intros l Hl.
    destruct (H3 (s0 l)) as (P0 & P1 & P2 & P3 & P4); [now apply relabelling_lt|].
    rewrite (dr_pk1 _ _ _ _ _ _ D0), !(dr_S _ _ _ _ _ _ D0), !(T0 eq_refl) by auto. auto. }
  destruct (dlp_movers_spec nl nk p0 data Hnl Hok0) as (lp & E1 & E2 & E3).
  rewrite E1. cbn [bind]. rewrite E2. cbn [bind]. rewrite E3. cbn [bind].
  cbn [converged andb]. unfold dem_update. rewrite Hu.
  change (map (fun o => map (mover_posterior nl nk p0 o) (range nl)) data)
    with (table nl (mover_posterior nl nk p0) data).
  rewrite (dpk_update_err (nk * nk) nl (dd_prior c) (fun o => (dg1 o + nk * dg4 o)%nat) _ data (k1 + nk * k2));
    [reflexivity|exact Hnl|nia|].
  intros o Ho E. destruct (Hok o Ho) as (H1 & H2 & _). apply (Hno o Ho).
  assert (dg4 o = k2) by nia. subst k2. split; [lia|reflexivity].
Qed.
Lemma unobserved_stayers argsort solver nl nk c compute_NNs data p k :
  (forall l, is_argsort l (argsort l)) -> (0 < nl)%nat ->
  (forall o, In o (dcons_a c ++ dcons_a_all c ++ dcons_s c ++ dcons_s_all c) -> valid 2 nl nk o) ->
  up_pk0 c = true -> (0 < dn_iters_stayers c)%nat -> (forall o, In o data -> dstayer_ok nl nk p o) ->
  (k < nk)%nat -> (forall o, In o data -> dg1 o <> k) ->
  dfit_stayers argsort solver nl nk c compute_NNs data p = Err ValueError.
Proof.
  intros Ha Hnl Hv Hu Hn Hok Hk Hno.
  destruct (dgen_constraints_ok nl nk c false Hnl Hv) as (qa & qs & Ec & _).
  destruct (dlp_stayers_spec nl nk p data Hnl Hok) as (st & lp & E0 & E1 & E2 & E3).
  unfold dfit_stayers. rewrite E0. cbn [bind]. rewrite Ec. cbn [bind].
  destruct (dn_iters_stayers c) as [|n]; [lia|]. cbn [dstayers_loop].
  rewrite E1. cbn [bind]. rewrite E2. cbn [bind]. rewrite E3. cbn [bind].
  cbn [converged andb]. unfold dem_update_stayers. rewrite Hu.
  change (map (fun o => map (stayer_posterior nl p o) (range nl)) data)
    with (table nl (stayer_posterior nl p) data).
  rewrite (dpk_update_err nk nl (dd_prior_stayers c) dg1 _ data k); [reflexivity|exact Hnl|exact Hk|exact Hno].
Qed.

(* ---- a fit without updates of rho and of standard deviations ---- *)
Lemma same_rows nk data : (forall o, In o data -> (dg1 o < nk)%nat /\ (dg4 o < nk)%nat) ->
  Forall2 (dsame_row nk (fun k => k)) data data.
Proof.
  induction data as [|o D IH]; intros H; constructor.
  - destruct (H o (or_introl eq_refl)). repeat split; assumption.
  - apply IH. intros; apply H; now right.
Qed.
Lemma fit_ascent argsort solver pp nl nk c compute_NNm data p v :
  (forall l, is_argsort l (argsort l)) -> dexact solver -> (0 < nl)%nat ->
  (forall o, In o (dcons_a c ++ dcons_a_all c ++ dcons_s c ++ dcons_s_all c) ->
     valid (length (periods_movers (endogeneity c) (state_dependence c))) nl nk o) ->
  0 < ds_lower_bound c ->
  up_rho12 c = false -> up_rho43 c = false -> up_rho32m c = false -> up_s c = false ->
  dd_prior c = 1 -> (up_pk1 c = true -> dall_pairs nk data) ->
  (forall o, In o data -> dmover_ok nl nk p o) ->
  (forall o, In o data -> sumn nl (dpk1 p (dg1 o + nk * dg4 o)%nat) = 1) ->
  b_absent nk (endogeneity c) (state_dependence c) (dAb p) ->
  b_absent nk (endogeneity c) (state_dependence c) (dSb p) ->
  (up_a c = true -> d_X_diag c <= 1 /\ 0 < v /\ equal_variances nl data v p /\
     forall s q, relabelling nl s -> drelabelled nl nk s (fun k => k) p q ->
       A_feasible nl nk c (dA q) (dAb q)) ->
  exists p' lik ls, dfit_movers argsort solver pp nl nk c compute_NNm data p = Ok (p', lik, ls) /\
    Sorted Rle (ls ++ [dmovers_loglik nl nk p' data]) /\
    hd 0 (ls ++ [dmovers_loglik nl nk p' data]) = dmovers_loglik nl nk p data.
Proof.
  intros Ha He Hnl Hv Hlb N1 N2 N3 N4 N5 Hall Hok Hsum HA HS HU.
  destruct (fit_movers_path argsort solver pp nl nk c compute_NNm data p Ha He Hnl Hv Hlb) as
    (s0 & p0 & p1 & s1 & p2 & lik & ls & R0 & D0 & Hp & R1 & D1 & _ & Ef & _);
    [lra|exact Hall|exact (conj Hok (conj HA HS))|].
  assert (Hrows : Forall2 (dsame_row nk (fun k => k)) data data).
  { apply same_rows. intros o Ho. destruct (Hok o Ho) as (? & ? & _). now split. }
  destruct (dloglik_relabelled nl nk s0 (fun k => k) p p0 data data R0 D0 Hrows) as [L0 _].
  destruct (dloglik_relabelled nl nk s1 (fun k => k) p1 p2 data data R1 D1 Hrows) as [L1 _].
  set (w := if up_a c then v else 1).
  assert (Hw : 0 < w) by (unfold w; destruct (up_a c); [apply HU; reflexivity|lra]).
  assert (G : good nl nk c data w p0).
  { split; [|split].
    - intros o Ho. destruct (Hok o Ho) as (H1 & H2 & H3). split; [exact H1|]. split; [exact H2|]. intros l Hl.
      destruct (H3 (s0 l)) as (P0 & P1 & P2 & P3 & P4); [now apply relabelling_lt|].
      rewrite (dr_pk1 _ _ _ _ _ _ D0), !(dr_S _ _ _ _ _ _ D0) by auto. auto.
    - intros o Ho. destruct (Hok o Ho) as (H1 & H2 & _). rewrite <- (Hsum o Ho).
      rewrite <- (relabelling_sumn nl s0 (dpk1 p (dg1 o + nk * dg4 o)%nat) R0).
      apply sumn_ext. intros l Hl. now rewrite (dr_pk1 _ _ _ _ _ _ D0).
    - intros Ua. unfold w. rewrite Ua. destruct (HU Ua) as (_ & _ & EV & HF).
      split; [|now apply (HF s0)].
      intros o l Ho Hl. destruct (Hok o Ho) as (H1 & H2 & _).
      destruct (EV o (s0 l) Ho) as (E1 & E2 & E3 & E4); [now apply relabelling_lt|].
      destruct (dr_rho _ _ _ _ _ _ D0) as (r1 & r2 & r3 & _).
      rewrite <- E1 at 1. rewrite <- E2 at 1. rewrite <- E3 at 1. rewrite <- E4.
      unfold dvar1, dvar3, dvar4, dvar2, sq, sqb.
      rewrite r1, r2, r3, !(dr_S _ _ _ _ _ _ D0), !(dr_Sb _ _ _ _ _ _ D0) by auto. repeat split. }
  destruct (path_ascent solver nl nk c data Hnl (conj N1 (conj N2 N3)) N4 N5) with (3 := G) (4 := Hp)
    as (S1 & S2 & _); [|exact Hw|].
  { intros Ua. now apply HU. }
  assert (E : forall q, dmovers_loglik nl nk (if compute_NNm then dset_NNm (dmover_counts data) q else q) data
                = dmovers_loglik nl nk q data) by (destruct compute_NNm; reflexivity).
  eexists _, lik, ls. split; [exact Ef|]. rewrite E, L1. split; [exact S1|]. now rewrite S2, L0.
Qed.

(* ---- one iteration ---- *)
Section Iteration.
Variables (argsort : list R -> list nat) (solver : nat -> mat -> list R -> problem -> qpres).
Variables (nl nk : nat) (c : dsettings) (data : list dobs) (iter : nat) (p : dpar).
Hypothesis argsort_ok : forall l, is_argsort l (argsort l).
Hypothesis solver_exact : dexact solver.
Hypothesis nl_pos : (0 < nl)%nat.
Hypothesis lb_pos : 0 < ds_lower_bound c.

Lemma movers_iteration :
  dcons_valid (nt_movers c) nl nk c -> 1 <= dd_prior c -> (up_pk1 c = true -> dall_pairs nk data) ->
  (forall o, In o data -> dmover_ok nl nk p o) ->
  b_absent nk (endogeneity c) (state_dependence c) (dAb p) ->
  b_absent nk (endogeneity c) (state_dependence c) (dSb p) ->
  exists cons p', dgen_constraints nl nk c true = Ok cons /\
    dem_update argsort solver nl nk c iter cons data
      (map (fun o => map (mover_posterior nl nk p o) (range nl)) data) p = Ok (p', cons) /\
    mover_step solver nl nk c data iter p p'.
Proof.
  intros Hv Hd Hall Hok HA HS.
  destruct (dgen_constraints_ok nl nk c true nl_pos Hv) as (qa & qs & Ec & _).
  destruct (em_step_ok argsort argsort_ok solver solver_exact nl nk c data nl_pos Hv lb_pos Hd Hall iter
              (qa, qs) p Ec (conj Hok (conj HA HS))) as (p' & E & Hs & _).
  exists (qa, qs), p'. split; [exact Ec|]. split; [exact E|exact Hs].
Qed.
Lemma stayers_iteration :
  dcons_valid 2 nl nk c -> 1 <= dd_prior_stayers c -> (up_pk0 c = true -> dall_firms nk data) ->
  (forall o, In o data -> dstayer_ok nl nk p o) ->
  exists cons p', dgen_constraints nl nk c false = Ok cons /\
    dem_update_stayers argsort solver nl nk c iter cons data
      (map (fun o => map (stayer_posterior nl p o) (range nl)) data) p = Ok (p', cons) /\
    stayer_step solver nl nk c data iter p p'.
Proof.
  intros Hv Hd Hall Hok.
  destruct (dgen_constraints_ok nl nk c false nl_pos Hv) as (qa & qs & Ec & _).
  destruct (em_step_s_ok argsort argsort_ok solver solver_exact nl nk c data nl_pos Hv lb_pos Hd Hall iter
              (qa, qs) p Ec Hok) as (p' & E & Hs & _).
  exists (qa, qs), p'. split; [exact Ec|]. split; [exact E|exact Hs].
Qed.

Lemma effects_movers :
  dcons_valid (nt_movers c) nl nk c -> 1 <= dd_prior c -> (up_pk1 c = true -> dall_pairs nk data) ->
  (forall o, In o data -> dmover_ok nl nk p o) ->
  b_absent nk (endogeneity c) (state_dependence c) (dAb p) ->
  b_absent nk (endogeneity c) (state_dependence c) (dSb p) ->
  up_a c = true -> rho_turn c iter = false ->
  exists cons p', dgen_constraints nl nk c true = Ok cons /\
    dem_update argsort solver nl nk c iter cons data
      (map (fun o => map (mover_posterior nl nk p o) (range nl)) data) p = Ok (p', cons) /\
    (dA p' = dA p /\ dAb p' = dAb p \/ A_optimal nl nk c data p (dA p') (dAb p')) /\
    (dcomplete solver -> (exists A Ab, A_optimal nl nk c data p A Ab) ->
     A_optimal nl nk c data p (dA p') (dAb p')).
Proof.
  intros Hv Hd Hall Hok HA HS Ua Hr.
  destruct (movers_iteration Hv Hd Hall Hok HA HS) as (cons & p' & E1 & E2 & Hs).
  exists cons, p'. split; [exact E1|]. split; [exact E2|].
  pose proof (ms_A _ _ _ _ _ _ _ _ Hs) as M. rewrite Hr, Ua in M. exact M.
Qed.
Lemma effects_stayers :
  dcons_valid 2 nl nk c -> 1 <= dd_prior_stayers c -> (up_pk0 c = true -> dall_firms nk data) ->
  (forall o, In o data -> dstayer_ok nl nk p o) -> up_a_stayers c = true -> rho_turn_s c iter = false ->
  exists cons p', dgen_constraints nl nk c false = Ok cons /\
    dem_update_stayers argsort solver nl nk c iter cons data
      (map (fun o => map (stayer_posterior nl p o) (range nl)) data) p = Ok (p', cons) /\
    (dA p' = dA p \/ As_optimal nl nk c data p (dA p')) /\
    (dcomplete solver -> (exists A, As_optimal nl nk c data p A) -> As_optimal nl nk c data p (dA p')) /\
    (forall t, t <> T2s -> t <> T3s -> dA p' t = dA p t).
Proof.
  intros Hv Hd Hall Hok Ua Hr.
  destruct (stayers_iteration Hv Hd Hall Hok) as (cons & p' & E1 & E2 & Hs).
  exists cons, p'. split; [exact E1|]. split; [exact E2|].
  pose proof (ss_A _ _ _ _ _ _ _ _ Hs) as M. rewrite Hr, Ua in M. destruct M as [M1 M2].
  split; [exact M1|]. split; [exact M2|]. intros t H1 H2.
  now destruct (proj1 (ss_movers _ _ _ _ _ _ _ _ Hs) t H1 H2).
Qed.

Lemma rho_movers :
  dcons_valid (nt_movers c) nl nk c -> 1 <= dd_prior c -> (up_pk1 c = true -> dall_pairs nk data) ->
  (forall o, In o data -> dmover_ok nl nk p o) ->
  b_absent nk (endogeneity c) (state_dependence c) (dAb p) ->
  b_absent nk (endogeneity c) (state_dependence c) (dSb p) ->
  rho_turn c iter = true ->
  exists cons p', dgen_constraints nl nk c true = Ok cons /\
    dem_update argsort solver nl nk c iter cons data
      (map (fun o => map (mover_posterior nl nk p o) (range nl)) data) p = Ok (p', cons) /\
    (if up_rho12 c then regressor12 nl data p -> least (rho12_loss nl nk data p) (R12 p')
     else R12 p' = R12 p) /\
    (if up_rho43 c then regressor43 nl data p -> least (rho43_loss nl nk data p) (R43 p')
     else R43 p' = R43 p) /\
    (if up_rho32m c then regressor32m nl data p -> least (rho32m_loss nl nk data p) (R32m p')
     else R32m p' = R32m p) /\
    R32s p' = R32s p /\
    dA p' = dA p /\ dAb p' = dAb p /\ dS p' = dS p /\ dSb p' = dSb p.
Proof.
  intros Hv Hd Hall Hok HA HS Hr.
  destruct (movers_iteration Hv Hd Hall Hok HA HS) as (cons & p' & E1 & E2 & Hs).
  exists cons, p'. split; [exact E1|]. split; [exact E2|].
  destruct Hs as [_ M1 M2 M3 M4 M5 M6 _]. rewrite Hr in M1, M2, M3, M4, M5. cbn [andb negb] in *.
  destruct M4, M5, M6 as (_ & _ & _ & _ & _ & M6). now repeat split.
Qed.
Lemma rho_stayers :
  dcons_valid 2 nl nk c -> 1 <= dd_prior_stayers c -> (up_pk0 c = true -> dall_firms nk data) ->
  (forall o, In o data -> dstayer_ok nl nk p o) -> rho_turn_s c iter = true ->
  exists cons p', dgen_constraints nl nk c false = Ok cons /\
    dem_update_stayers argsort solver nl nk c iter cons data
      (map (fun o => map (stayer_posterior nl p o) (range nl)) data) p = Ok (p', cons) /\
    (regressor32s nl data p -> least (rho32s_loss nl data p) (R32s p')) /\
    R12 p' = R12 p /\ R43 p' = R43 p /\ R32m p' = R32m p /\ dA p' = dA p /\ dS p' = dS p.
Proof.
  intros Hv Hd Hall Hok Hr.
  destruct (stayers_iteration Hv Hd Hall Hok) as (cons & p' & E1 & E2 & Hs).
  exists cons, p'. split; [exact E1|]. split; [exact E2|].
  destruct Hs as [_ M1 M2 M3 M4 _]. rewrite Hr in M1, M2, M3. cbn [andb negb] in *.
  destruct M4 as (_ & _ & _ & _ & ? & ? & ?). now repeat split.
Qed.

Lemma spread_movers :
  dcons_valid (nt_movers c) nl nk c -> 1 <= dd_prior c -> (up_pk1 c = true -> dall_pairs nk data) ->
  (forall o, In o data -> dmover_ok nl nk p o) ->
  b_absent nk (endogeneity c) (state_dependence c) (dAb p) ->
  b_absent nk (endogeneity c) (state_dependence c) (dSb p) ->
  plain (R12 p) -> plain (R43 p) -> plain (R32m p) -> up_s c = true -> rho_turn c iter = false ->
  exists cons p', dgen_constraints nl nk c true = Ok cons /\
    dem_update argsort solver nl nk c iter cons data
      (map (fun o => map (mover_posterior nl nk p o) (range nl)) data) p = Ok (p', cons) /\
    (dS p' = dS p /\ dSb p' = dSb p \/
     V_optimal nl nk c data p (dA p') (dAb p') (sq (dS p')) (sqb (dSb p'))) /\
    (dcomplete solver -> (exists V Vb, V_optimal nl nk c data p (dA p') (dAb p') V Vb) ->
     V_optimal nl nk c data p (dA p') (dAb p') (sq (dS p')) (sqb (dSb p'))).
Proof.
  intros Hv Hd Hall Hok HA HS N1 N2 N3 Us Hr.
  destruct (movers_iteration Hv Hd Hall Hok HA HS) as (cons & p' & E1 & E2 & Hs).
  exists cons, p'. split; [exact E1|]. split; [exact E2|].
  pose proof (ms_V _ _ _ _ _ _ _ _ Hs) as M. rewrite Hr, Us in M. cbn [andb negb] in M.
  destruct M as [M1 M2]. split.
  - destruct M1 as [M1|M1]; [now left|right]. now apply V_optimal_plain.
  - intros Hc (V & Vb & HV). apply V_optimal_plain; try assumption. apply M2; [exact Hc|].
    exists V, Vb. now apply V_optimal_plain.
Qed.
Lemma spread_stayers :
  dcons_valid 2 nl nk c -> 1 <= dd_prior_stayers c -> (up_pk0 c = true -> dall_firms nk data) ->
  (forall o, In o data -> dstayer_ok nl nk p o) ->
  plain (R32s p) -> up_s_stayers c = true -> rho_turn_s c iter = false ->
  exists cons p', dgen_constraints nl nk c false = Ok cons /\
    dem_update_stayers argsort solver nl nk c iter cons data
      (map (fun o => map (stayer_posterior nl p o) (range nl)) data) p = Ok (p', cons) /\
    (dS p' = dS p \/ Vs_optimal nl nk c data p (dA p') (sq (dS p'))) /\
    (dcomplete solver -> (exists V, Vs_optimal nl nk c data p (dA p') V) ->
     Vs_optimal nl nk c data p (dA p') (sq (dS p'))) /\
    (forall t, t <> T2s -> t <> T3s -> dS p' t = dS p t).
Proof.
  intros Hv Hd Hall Hok N Us Hr.
  destruct (stayers_iteration Hv Hd Hall Hok) as (cons & p' & E1 & E2 & Hs).
  exists cons, p'. split; [exact E1|]. split; [exact E2|].
  pose proof (ss_V _ _ _ _ _ _ _ _ Hs) as M. rewrite Hr, Us in M. cbn [andb negb] in M.
  destruct M as [M1 M2]. split; [|split].
  - destruct M1 as [M1|M1]; [now left|right]. now apply Vs_optimal_plain.
  - intros Hc (V & HV). apply Vs_optimal_plain; try assumption. apply M2; [exact Hc|].
    exists V. now apply Vs_optimal_plain.
  - intros t H1 H2. now destruct (proj1 (ss_movers _ _ _ _ _ _ _ _ Hs) t H1 H2).
Qed.
End Iteration.

(* ---- whole fits, with the hypotheses spelled out ---- *)
Lemma fit_movers_thm argsort solver pp nl nk c compute_NNm data p :
  (forall l, is_argsort l (argsort l)) -> dexact solver -> (0 < nl)%nat ->
  dcons_valid (nt_movers c) nl nk c -> 0 < ds_lower_bound c -> 1 <= dd_prior c ->
  (up_pk1 c = true -> dall_pairs nk data) ->
  (forall o, In o data -> dmover_ok nl nk p o) ->
  b_absent nk (endogeneity c) (state_dependence c) (dAb p) ->
  b_absent nk (endogeneity c) (state_dependence c) (dSb p) ->
  exists s0 p0 p1 s1 p2 lik ls,
    relabelling nl s0 /\ drelabelled nl nk s0 (fun k => k) p p0 /\
    mover_path solver nl nk c data (dn_iters c) 0 None p0 ls p1 /\
    relabelling nl s1 /\ drelabelled nl nk s1 (fun k => k) p1 p2 /\
    ordered false nl (worker_mean pp nk (dA p2 T12) (dA p2 T43)) /\
    dfit_movers argsort solver pp nl nk c compute_NNm data p
      = Ok (if compute_NNm then dset_NNm (dmover_counts data) p2 else p2, lik, ls) /\
    lik = match rev ls with [] => None | l :: _ => Some l end.
Proof.
  intros Ha He Hnl Hv Hlb Hd Hall Hok HA HS.
  exact (fit_movers_path argsort solver pp nl nk c compute_NNm data p Ha He Hnl Hv Hlb Hd Hall
           (conj Hok (conj HA HS))).
Qed.
Lemma sort_thm argsort pp nl nk (sf reverse : bool) p :
  (forall l, is_argsort l (argsort l)) ->
  let p' := dsort_parameters argsort pp nl nk sf reverse p in
  exists s t, relabelling nl s /\ relabelling nk t
    /\ (sf = false -> forall k, t k = k)
    /\ drelabelled nl nk s t p p'
    /\ ordered reverse nl (worker_mean pp nk (dA p' T12) (dA p' T43))
    /\ (sf = true -> ordered reverse nk (firm_mean pp nl (dA p' T12) (dA p' T43)))
    /\ forall data data', Forall2 (dsame_row nk t) data data' ->
         dmovers_loglik nl nk p' data' = dmovers_loglik nl nk p data /\
         dstayers_loglik nl p' data' = dstayers_loglik nl p data.
Proof.
  intros Ha p'. destruct (dsort_spec argsort Ha pp nl nk sf reverse p) as (s & t & H1 & H2 & H3 & H4 & H5 & H6).
  exists s, t. do 6 (split; [assumption|]). intros data data' F.
  exact (dloglik_relabelled nl nk s t p p' data data' H1 H4 F).
Qed.

(* ---- a case: everything is estimated ---- *)
Definition v_data : list dobs :=
  [mkdobs 1 2 3 4 0 0; mkdobs 2 1 0 (-1) 0 1; mkdobs 0 0 1 1 1 0; mkdobs 5 4 4 4 1 1].
Definition v_set : dsettings :=
  mkdset true true true true true true true true true true true true 3 3 0 2 2 1 1 (1/100) [] [] [] [].
Definition v_par : dpar :=
  mkdpar (fun _ l k => INR l + 2 * INR k) (fun _ k => INR k) (fun _ _ _ => 1) (fun _ _ => 1)
    (fun _ _ => 1/2) (fun _ _ => 1/2) (fun _ _ => 0) (fun _ => 0) (1/2) (1/2) (1/2) (1/2).
Lemma v_valid nt : dcons_valid nt 2 2 v_set.
Proof. intros o []. Qed.
Lemma v_pairs : dall_pairs 2 v_data.
Proof.
  intros k1 k2 H1 H2. destruct k1 as [|[|]], k2 as [|[|]]; try lia; eexists.
  - split; [left; reflexivity|now split].
  - split; [right; left; reflexivity|now split].
  - split; [right; right; left; reflexivity|now split].
  - split; [right; right; right; left; reflexivity|now split].
Qed.
Lemma v_firms : dall_firms 2 v_data.
Proof. intros k Hk. destruct (v_pairs k k Hk Hk) as (o & Ho & E & _). now exists o. Qed.
Lemma v_types o : In o v_data -> (dg1 o < 2)%nat /\ (dg4 o < 2)%nat.
Proof. intros [<-|[<-|[<-|[<-|[]]]]]; cbn [dg1 dg4]; lia. Qed.
Lemma v_movers o : In o v_data -> dmover_ok 2 2 v_par o.
Proof.
  intros Ho. destruct (v_types o Ho) as [H1 H2]. split; [exact H1|]. split; [exact H2|].
  intros l _. cbn [v_par dpk1 dS]. repeat split; lra.
Qed.
Lemma v_stayers o : In o v_data -> dstayer_ok 2 2 v_par o.
Proof.
  intros Ho. destruct (v_types o Ho) as [H1 _]. split; [exact H1|].
  intros l _. cbn [v_par dpk0 dS]. repeat split; lra.
Qed.
Lemma v_absent (f : bper -> nat -> R) : b_absent 2 (endogeneity v_set) (state_dependence v_set) f.
Proof. split; discriminate. Qed.
