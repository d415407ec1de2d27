(* Runs of SimDynamicBLM.simulate. *)
From Coq Require Import Permutation Sorted.
From Verif Require Import Base BaseLemmas UtilModel UtilSpec UtilQuantLemmas BLMModel BLMSpec SimModel SimSpec SimLemmas
  SimPropLemmas BLMRealModel DBLMModel DBLMSpec DBootModel DBootSpec DBootLemmas SimDModel SimDSpec SimDLemmas SimDPropLemmas.
Local Open Scope R_scope.

Section Run.
Variables nl nk : nat.
Variable cm : nat -> nat -> nat.
Variable cs : nat -> nat.
Variable q : rhos.
Variable g : wdraws.
Variable argsort : list R -> list nat.
Variable sort : list R -> list R.
Variables (o : opts) (d : pdraws) (cats : list catspec) (ctss : list ctsspec) (fuel : nat).
Local Notation dsim := (dsim nl nk cm cs q g argsort sort o d cats ctss fuel).
Local Notation mrows := (mrows nk cm g).
Local Notation srows := (srows nk cs g).
Local Notation sim0 := (SimModel.simulate nk cm cs no_wage no_wage no_wage no_wage (frame g) fuel).

Lemma dsim_inv jd sd A S cc ct : dsim = Ok (jd, sd, (A, S, cc, ct)) ->
  Forall2 (cat_rel nl o) cats cc /\ Forall2 (cts_rel nl o) ctss ct /\
  gen_AS argsort sort nl nk o d = Ok (A, S) /\
  exists ym ys jd0 sd0,
    wages q periods_movers mover_y A S cc ct mrows (zm g) (catm g) (ctsm g) = Ok ym /\
    wages q periods_stayers stayer_y A S cc ct srows (zs g) (cats_ g) (ctss_ g) = Ok ys /\
    sim0 = Ok (jd0, sd0) /\
    jd = out (catm g) (ctsm g) (length cc) (length ct) jd0 ym /\
    sd = out (cats_ g) (ctss_ g) (length cc) (length ct) sd0 ys.
Proof.
  unfold SimDModel.dsim. intros E.
  destruct (traverse _ cats) as [cc'|] eqn:E1; [|discriminate]. cbn [bind] in E.
  destruct (traverse _ ctss) as [ct'|] eqn:E2; [|discriminate]. cbn [bind] in E.
  destruct (gen_AS _ _ _ _ _ _) as [[A' S']|] eqn:E3; [|discriminate]. cbn [bind] in E.
  unfold simulate_with in E.
  destruct (wages _ periods_movers _ _ _ _ _ _ _ _ _) as [ym|] eqn:E4; [|discriminate]. cbn [bind] in E.
  destruct (wages _ periods_stayers _ _ _ _ _ _ _ _ _) as [ys|] eqn:E5; [|discriminate]. cbn [bind] in E.
  destruct (SimModel.simulate _ _ _ _ _ _ _ _ _) as [[jd0 sd0]|] eqn:E6; [|discriminate]. cbn [bind] in E.
  injection E as <- <- <- <- <- <-.
  split; [now apply cats_rel|]. split; [now apply ctss_rel|]. split; [reflexivity|].
  exists ym, ys, jd0, sd0. auto.
Qed.

Lemma sim0_rows jd0 sd0 : sim0 = Ok (jd0, sd0) -> map o_row jd0 = mrows /\ map o_row sd0 = srows.
Proof.
  intros E. apply simulate_inv in E. destruct E as (j2 & _ & -> & ->). now rewrite !SimPropLemmas.out_row.
Qed.

Lemma out_nth_error code x nc nx l ys r ob : nth_error l r = Some ob ->
  nth_error (out code x nc nx l ys) r = Some (SimDModel.out_row code x nc nx r ob (nth r ys (Q4 0 0 0 0))).
Proof.
  intros H. unfold out.
  rewrite (map_nth_error _ _ _ (d := (r, ob))); [reflexivity|]. now rewrite nth_error_enumerate, H.
Qed.
Lemma out_length code x nc nx l ys : length (out code x nc nx l ys) = length l.
Proof. unfold out. now rewrite map_length, length_enumerate. Qed.

(* A row of the result and its parts. *)
Lemma out_row_inv code x nc nx l ys r row rows : map o_row l = rows ->
  nth_error (out code x nc nx l ys) r = Some row ->
  exists ob s, nth_error l r = Some ob /\ nth_error rows r = Some s /\ o_row ob = s /\
    row = SimDModel.out_row code x nc nx r ob (nth r ys (Q4 0 0 0 0)).
Proof.
  intros M H. destruct (nth_error l r) as [ob|] eqn:E.
  - exists ob, (o_row ob). split; [reflexivity|]. split; [rewrite <- M; now apply map_nth_error|].
    split; [reflexivity|]. rewrite (out_nth_error _ _ _ _ _ _ _ _ E) in H. now injection H as <-.
  - apply nth_error_None in E. rewrite <- (out_length code x nc nx l ys) in E.
    apply nth_error_None in E. congruence.
Qed.

Lemma stayers_same r s : nth_error srows r = Some s -> s_g2 s = s_g1 s.
Proof.
  intros H. apply nth_error_In in H. unfold SimDModel.srows, stayers in H. apply in_flat_map in H.
  destruct H as (k & _ & H). unfold stayer_block in H. apply in_map_iff in H. destruct H as (w & <- & _). reflexivity.
Qed.

(* ---- without control variables ---- *)
Lemma A_sum_nil rows A p r l k code x : A_sum rows A [] [] p r l k code x = base A p l k.
Proof. unfold A_sum. destruct (base A p l k); reflexivity. Qed.
Lemma S_sum_nil rows A p r l k code v : S_sum_sq rows A [] [] p r l k code = Ok v ->
  exists s, base A p l k = Ok s /\ v = s ^ 2.
Proof. unfold S_sum_sq. destruct (base A p l k) as [s|]; [|discriminate]. cbn. intros [= <-]. exists s. auto. Qed.

Lemma plain_movers jd sd A S r row : cats = [] -> ctss = [] -> forall cc ct,
  dsim = Ok (jd, sd, (A, S, cc, ct)) -> nth_error jd r = Some row ->
  mover_follows (par_of A S q) row (zm g r).
Proof.
  intros N1 N2 cc ct E Hr. apply dsim_inv in E. destruct E as (F1 & F2 & _ & ym & ys & jd0 & sd0 & W & _ & E0 & -> & _).
  rewrite N1 in F1. rewrite N2 in F2. inversion F1; subst cc. inversion F2; subst ct. destruct (sim0_rows _ _ E0) as [M _].
  destruct (out_row_inv _ _ _ _ _ _ _ _ _ M Hr) as (ob & s & _ & Hs & Eo & ->).
  destruct (wages_row _ _ _ _ _ _ _ _ _ _ _ _ W) as [_ G]. destruct (G r s Hs) as (a & v & Ha & Hv & Ey).
  unfold mover_follows. cbn [SimDModel.out_row d_l d_g d_y at1 at4]. rewrite Eo, Ey.
  assert (Ha' : forall p, In p periods_movers -> a p = entry (get A p) (brow p (s_l s)) (type_in s p)).
  { intros p Hp. specialize (Ha p Hp). rewrite A_sum_nil in Ha. now apply base_entry in Ha. }
  assert (Hv' : forall p, In p periods_movers -> v p = entry (get S p) (brow p (s_l s)) (type_in s p) ^ 2).
  { intros p Hp. specialize (Hv p Hp). apply S_sum_nil in Hv. destruct Hv as (sg & B & ->). apply base_entry in B. now rewrite B. }
  rewrite (mover_y_wages (par_of A S q) q a v (s_l s) (s_g1 s) (s_g2 s)); [apply mover_wages_ok|repeat split|..];
    first [rewrite Ha' by (cbn; tauto)|rewrite Hv' by (cbn; tauto)]; reflexivity.
Qed.
Lemma plain_stayers jd sd A S r row : cats = [] -> ctss = [] -> forall cc ct,
  dsim = Ok (jd, sd, (A, S, cc, ct)) -> nth_error sd r = Some row ->
  (forall l k, 0 <= entry (get S (PA T2s)) l k) ->
  stayer_follows (par_of A S q) row (zs g r).
Proof.
  intros N1 N2 cc ct E Hr Pos. apply dsim_inv in E. destruct E as (F1 & F2 & _ & ym & ys & jd0 & sd0 & _ & W & E0 & _ & ->).
  rewrite N1 in F1. rewrite N2 in F2. inversion F1; subst cc. inversion F2; subst ct. destruct (sim0_rows _ _ E0) as [_ M].
  destruct (out_row_inv _ _ _ _ _ _ _ _ _ M Hr) as (ob & s & _ & Hs & Eo & ->).
  destruct (wages_row _ _ _ _ _ _ _ _ _ _ _ _ W) as [_ G]. destruct (G r s Hs) as (a & v & Ha & Hv & Ey).
  pose proof (stayers_same r s Hs) as Es.
  unfold stayer_follows. cbn [SimDModel.out_row d_l d_g d_y at1 at4]. rewrite Eo, Ey.
  assert (Ha' : forall p, In p periods_stayers -> a p = entry (get A p) (brow p (s_l s)) (type_in s p)).
  { intros p Hp. specialize (Ha p Hp). rewrite A_sum_nil in Ha. now apply base_entry in Ha. }
  assert (Hv' : forall p, In p periods_stayers -> v p = entry (get S p) (brow p (s_l s)) (type_in s p) ^ 2).
  { intros p Hp. specialize (Hv p Hp). apply S_sum_nil in Hv. destruct Hv as (sg & B & ->). apply base_entry in B. now rewrite B. }
  rewrite (stayer_y_wages (par_of A S q) q a v (s_l s) (s_g1 s)); [apply stayer_wages_ok; apply Pos|repeat split|..];
    first [rewrite Ha' by (cbn; tauto)|rewrite Hv' by (cbn; tauto)]; unfold type_in; cbn [second]; rewrite ?Es; reflexivity.
Qed.

(* ---- with control variables ---- *)
Lemma sqrt_sq x : 0 <= x -> sqrt x ^ 2 = x.
Proof. intros H. rewrite <- Rsqr_pow2. now apply Rsqr_sqrt. Qed.

Section Plain.
Hypothesis Scc : Forall (fun c => stationary (cat_stat c) = false) cats.
Hypothesis Sct : Forall (fun c => stationary (cts_stat c) = false) ctss.
Hypothesis Pos : sds (fun s => 0 <= s) cats ctss.

Lemma control_movers jd sd A S cc ct r row :
  dsim = Ok (jd, sd, (A, S, cc, ct)) -> nth_error jd r = Some row ->
  mover_follows (with_controls (par_of A S q) (ctrl_mean o cats ctss row) (ctrl_sds o cats ctss row)) row (zm g r).
Proof.
  intros E Hr. apply dsim_inv in E. destruct E as (F1 & F2 & _ & ym & ys & jd0 & sd0 & W & _ & E0 & -> & _).
  destruct (sim0_rows _ _ E0) as [M _].
  destruct (out_row_inv _ _ _ _ _ _ _ _ _ M Hr) as (ob & s & _ & Hs & Eo & Er).
  destruct (wages_row _ _ _ _ _ _ _ _ _ _ _ _ W) as [_ G]. destruct (G r s Hs) as (a & v & Ha & Hv & Ey).
  assert (El : d_l row = s_l s) by (rewrite Er; cbn; now rewrite Eo).
  assert (Eg : at1 (d_g row) = s_g1 s /\ at4 (d_g row) = s_g2 s) by (rewrite Er; cbn; now rewrite Eo).
  assert (Ed : d_y row = mover_y q a v (zm g r)) by (rewrite Er; cbn; exact Ey).
  unfold mover_follows. destruct Eg as [-> ->]. rewrite Ed, El.
  assert (Ha' : forall p, In p periods_movers ->
     a p = entry (get A p) (brow p (s_l s)) (type_in s p) + ctrl_mean o cats ctss row p).
  { intros p Hp. apply (A_sum_value nl o cats ctss cc ct F1 F2 Scc Sct (length mrows) r (catm g) (ctsm g) A p (s_l s)
      (type_in s p) (a p) row El); [rewrite Er; reflexivity|rewrite Er; reflexivity|exact (Ha p Hp)]. }
  assert (Hv' : forall p, In p periods_movers ->
     v p = entry (get S p) (brow p (s_l s)) (type_in s p) ^ 2 + ctrl_sds o cats ctss row p).
  { intros p Hp. apply (S_sum_value nl o cats ctss cc ct F1 F2 Scc Sct (length mrows) r (catm g) (ctsm g) S p (s_l s)
      (type_in s p) (v p) row El); [rewrite Er; reflexivity|rewrite Er; reflexivity|exact (Hv p Hp)]. }
  assert (NN : forall x p, 0 <= x ^ 2 + ctrl_sds o cats ctss row p).
  { intros x p. pose proof (pow2_ge_0 x). pose proof (sds_nonneg o cats ctss row p Pos). lra. }
  rewrite (mover_y_wages (with_controls (par_of A S q) (ctrl_mean o cats ctss row) (ctrl_sds o cats ctss row))
             q a v (s_l s) (s_g1 s) (s_g2 s)); [apply mover_wages_ok|repeat split|..];
    first [rewrite Ha' by (cbn; tauto)|rewrite Hv' by (cbn; tauto)];
    cbn [with_controls par_of dA dAb dS dSb]; rewrite ?sqrt_sq by apply NN; reflexivity.
Qed.
Lemma control_stayers jd sd A S cc ct r row :
  dsim = Ok (jd, sd, (A, S, cc, ct)) -> nth_error sd r = Some row ->
  stayer_follows (with_controls (par_of A S q) (ctrl_mean o cats ctss row) (ctrl_sds o cats ctss row)) row (zs g r).
Proof.
  intros E Hr. apply dsim_inv in E. destruct E as (F1 & F2 & _ & ym & ys & jd0 & sd0 & _ & W & E0 & _ & ->).
  destruct (sim0_rows _ _ E0) as [_ M].
  destruct (out_row_inv _ _ _ _ _ _ _ _ _ M Hr) as (ob & s & _ & Hs & Eo & Er).
  destruct (wages_row _ _ _ _ _ _ _ _ _ _ _ _ W) as [_ G]. destruct (G r s Hs) as (a & v & Ha & Hv & Ey).
  pose proof (stayers_same r s Hs) as Es.
  assert (El : d_l row = s_l s) by (rewrite Er; cbn; now rewrite Eo).
  assert (Eg : at1 (d_g row) = s_g1 s) by (rewrite Er; cbn; now rewrite Eo).
  assert (Ed : d_y row = stayer_y q a v (zs g r)) by (rewrite Er; cbn; exact Ey).
  unfold stayer_follows. rewrite Eg, Ed, El.
  assert (Ha' : forall p, In p periods_stayers ->
     a p = entry (get A p) (brow p (s_l s)) (type_in s p) + ctrl_mean o cats ctss row p).
  { intros p Hp. apply (A_sum_value nl o cats ctss cc ct F1 F2 Scc Sct (length srows) r (cats_ g) (ctss_ g) A p (s_l s)
      (type_in s p) (a p) row El); [rewrite Er; reflexivity|rewrite Er; reflexivity|exact (Ha p Hp)]. }
  assert (Hv' : forall p, In p periods_stayers ->
     v p = entry (get S p) (brow p (s_l s)) (type_in s p) ^ 2 + ctrl_sds o cats ctss row p).
  { intros p Hp. apply (S_sum_value nl o cats ctss cc ct F1 F2 Scc Sct (length srows) r (cats_ g) (ctss_ g) S p (s_l s)
      (type_in s p) (v p) row El); [rewrite Er; reflexivity|rewrite Er; reflexivity|exact (Hv p Hp)]. }
  assert (NN : forall x p, 0 <= x ^ 2 + ctrl_sds o cats ctss row p).
  { intros x p. pose proof (pow2_ge_0 x). pose proof (sds_nonneg o cats ctss row p Pos). lra. }
  rewrite (stayer_y_wages (with_controls (par_of A S q) (ctrl_mean o cats ctss row) (ctrl_sds o cats ctss row))
             q a v (s_l s) (s_g1 s)); [apply stayer_wages_ok; cbn; apply sqrt_pos|repeat split|..];
    first [rewrite Ha' by (cbn; tauto)|rewrite Hv' by (cbn; tauto)]; unfold type_in; cbn [second]; rewrite ?Es;
    cbn [with_controls par_of dA dAb dS dSb]; rewrite ?sqrt_sq by apply NN; reflexivity.
Qed.
End Plain.

Section Refuted.
Hypothesis Scc : Forall (fun c => stationary (cat_stat c) = false) cats.
Hypothesis Sct : Forall (fun c => stationary (cts_stat c) = false) ctss.
Hypothesis Small : sds (fun s => 0 < s < 1) cats ctss.
Hypothesis Some_control : cats <> [] \/ ctss <> [].
Lemma small_pos : sds (fun s => 0 <= s) cats ctss.
Proof.
  destruct Small as [H1 H2]. split; (eapply Forall_impl; [|eassumption]); intros c H; intros; left; apply H.
Qed.
Lemma row_lengths (jd : list drow) jd0 ym code x cc ct r row :
  Forall2 (cat_rel nl o) cats cc -> Forall2 (cts_rel nl o) ctss ct ->
  jd = out code x (length cc) (length ct) jd0 ym -> nth_error jd r = Some row ->
  length (d_cat row) = length cats /\ length (d_cts row) = length ctss.
Proof.
  intros F1 F2 -> Hr. destruct (out_row_inv _ _ _ _ _ _ _ _ _ eq_refl Hr) as (ob & s & _ & _ & _ & ->).
  cbn [SimDModel.out_row d_cat d_cts]. rewrite !map_length. unfold range. rewrite !seq_length.
  now rewrite (Forall2_length _ _ _ F1), (Forall2_length _ _ _ F2).
Qed.
Lemma sqrt_neq m z u v : z <> 0 -> 0 <= u -> u < v -> m + sqrt u * z <> m + sqrt v * z.
Proof.
  intros Hz Hu Huv E. assert (sqrt u * z = sqrt v * z) by lra. apply Rmult_eq_reg_r in H; [|exact Hz].
  pose proof (sqrt_lt_1 u v Hu ltac:(lra) Huv). lra.
Qed.

Lemma control_movers_not jd sd A S cc ct r row :
  dsim = Ok (jd, sd, (A, S, cc, ct)) -> nth_error jd r = Some row -> at2 (zm g r) <> 0 ->
  ~ mover_follows (with_controls (par_of A S q) (ctrl_mean o cats ctss row) (ctrl_var o cats ctss row)) row (zm g r).
Proof.
  intros E Hr Hz F. pose proof (control_movers Scc Sct small_pos _ _ _ _ _ _ _ _ E Hr) as F'.
  apply dsim_inv in E. destruct E as (F1 & F2 & _ & ym & ys & jd0 & sd0 & _ & _ & _ & Ej & _).
  destruct (row_lengths _ _ _ _ _ _ _ _ _ F1 F2 Ej Hr) as [L1 L2].
  destruct F as (_ & F & _). destruct F' as (_ & F' & _). rewrite F' in F.
  unfold mean2, dvar2, sq, sqb in F.
  cbn [row_of dg1 dg4 with_controls dA dAb dS dSb par_of] in F.
  pose proof (sds_lt o cats ctss row T2ma Small Some_control L1 L2) as Lt.
  pose proof (sds_le o cats ctss row (PB T2mb) Small) as Le.
  pose proof (var_nonneg o cats ctss row (PA T2ma)). pose proof (var_nonneg o cats ctss row (PB T2mb)).
  pose proof (sds_nonneg o cats ctss row (PA T2ma) small_pos). pose proof (sds_nonneg o cats ctss row (PB T2mb) small_pos).
  assert (NN : forall x w, 0 <= w -> 0 <= x ^ 2 + w) by (intros x w Hw; pose proof (pow2_ge_0 x); lra).
  rewrite !sqrt_sq in F by (apply NN; assumption).
  refine (sqrt_neq _ _ _ _ Hz _ _ (eq_sym F)); [|lra].
  apply Rplus_le_le_0_compat; now apply NN.
Qed.
Lemma control_stayers_not jd sd A S cc ct r row :
  dsim = Ok (jd, sd, (A, S, cc, ct)) -> nth_error sd r = Some row -> at2 (zs g r) <> 0 ->
  ~ stayer_follows (with_controls (par_of A S q) (ctrl_mean o cats ctss row) (ctrl_var o cats ctss row)) row (zs g r).
Proof.
  intros E Hr Hz F. pose proof (control_stayers Scc Sct small_pos _ _ _ _ _ _ _ _ E Hr) as F'.
  apply dsim_inv in E. destruct E as (F1 & F2 & _ & ym & ys & jd0 & sd0 & _ & _ & _ & _ & Ej).
  destruct (row_lengths _ _ _ _ _ _ _ _ _ F1 F2 Ej Hr) as [L1 L2].
  destruct F as (_ & F & _). destruct F' as (_ & F' & _). rewrite F' in F.
  cbn [with_controls dA dAb dS dSb par_of] in F.
  pose proof (sds_lt o cats ctss row T2s Small Some_control L1 L2) as Lt.
  pose proof (var_nonneg o cats ctss row (PA T2s)).
  assert (NN : forall x w, 0 <= w -> 0 <= x ^ 2 + w) by (intros x w Hw; pose proof (pow2_ge_0 x); lra).
  refine (sqrt_neq _ _ _ _ Hz _ _ (eq_sym F)); [now apply NN|lra].
Qed.
End Refuted.

(* ---- stationarity options ---- *)
Lemma mrows_nonempty k1 k2 : (k1 < nk)%nat -> (k2 < nk)%nat -> (0 < cm k1 k2)%nat -> exists s, nth_error mrows 0 = Some s.
Proof.
  intros H1 H2 H. destruct mrows as [|s l] eqn:E; [|exists s; reflexivity]. exfalso.
  pose proof (movers_types nk cm no_wage no_wage no_wage no_wage (frame g) k1 k2 H1 H2) as T.
  unfold SimDModel.mrows in E. rewrite E in T. cbn in T. lia.
Qed.

Lemma stationary_raises k1 k2 : (k1 < nk)%nat -> (k2 < nk)%nat -> (0 < cm k1 k2)%nat ->
  stationary (ostat o) = true -> exists e, dsim = Err e.
Proof.
  intros H1 H2 Hc St. destruct dsim as [[[jd sd] [[[A S] cc] ct]]|e] eqn:E; [|now exists e]. exfalso.
  apply dsim_inv in E. destruct E as (_ & _ & G & ym & _ & _ & _ & W & _).
  destruct (mrows_nonempty k1 k2 H1 H2 Hc) as (s & Hs).
  destruct (wages_row _ _ _ _ _ _ _ _ _ _ _ _ W) as [_ R0]. destruct (R0 0%nat s Hs) as (a & v & Ha & Hv & _).
  specialize (Ha (PB T2mb) ltac:(cbn; tauto)). specialize (Hv (PB T2mb) ltac:(cbn; tauto)).
  destruct (gen_stationary _ _ _ _ _ _ _ _ St G) as [I|I].
  - destruct (idx1_not2 _ (type_in s (PB T2mb)) I) as (e & Ee). unfold A_sum, base in Ha. cbn [is_b] in Ha.
    rewrite Ee in Ha. discriminate.
  - destruct (idx1_not2 _ (type_in s (PB T2mb)) I) as (e & Ee). unfold S_sum_sq, base in Hv. cbn [is_b] in Hv.
    rewrite Ee in Hv. discriminate.
Qed.

Lemma for_each_err {A} (l : list A) (body : A -> R -> res R) x : In x l ->
  (forall a, exists e, body x a = Err e) -> forall a, exists e, for_each l body a = Err e.
Proof.
  intros Hx H. induction l as [|y l IH]; [destruct Hx|]. intros a. cbn [for_each].
  destruct Hx as [->|Hx].
  - destruct (H a) as (e & ->). eexists; reflexivity.
  - destruct (body y a) as [a'|e]; [|eexists; reflexivity]. cbn [bind]. now apply IH.
Qed.
Lemma In_nth_enum {A} (l : list A) c : In c l -> exists i, In (i, c) (enumerate l).
Proof.
  intros H. apply In_nth_error in H. destruct H as (i & H). exists i.
  apply nth_error_In with i. now rewrite nth_error_enumerate, H.
Qed.
Lemma F2_in {A B} (P : A -> B -> Prop) l m a : Forall2 P l m -> In a l -> exists b, In b m /\ P a b.
Proof.
  intros H. induction H as [|x y l m R0 H IH]; intros Ha; [destruct Ha|].
  destruct Ha as [->|Ha]; [exists y; split; [now left|exact R0]|].
  destruct (IH Ha) as (b & Hb & Pb). exists b. split; [now right|exact Pb].
Qed.

Lemma cat_stationary_raises k1 k2 c : (k1 < nk)%nat -> (k2 < nk)%nat -> (0 < cm k1 k2)%nat ->
  In c cats -> cat_int c = true -> stationary (cat_stat c) = true -> exists e, dsim = Err e.
Proof.
  intros H1 H2 Hc Hin I St. destruct dsim as [[[jd sd] [[[A S] cc] ct]]|e] eqn:E; [|now exists e]. exfalso.
  apply dsim_inv in E. destruct E as (F1 & _ & _ & ym & _ & _ & _ & W & _).
  destruct (mrows_nonempty k1 k2 H1 H2 Hc) as (s & Hs).
  destruct (wages_row _ _ _ _ _ _ _ _ _ _ _ _ W) as [_ R0]. destruct (R0 0%nat s Hs) as (a & v & Ha & Hv & _).
  specialize (Ha (PB T2mb) ltac:(cbn; tauto)). specialize (Hv (PB T2mb) ltac:(cbn; tauto)).
  destruct (F2_in _ _ _ _ F1 Hin) as (k & Hk & [G J]). destruct (In_nth_enum _ _ Hk) as (i & Hi).
  destruct (gen_cat_int _ _ _ _ _ I St G) as [I2|I2].
  - unfold A_sum in Ha. destruct (base A _ _ _) as [b|]; [|discriminate]. cbn [bind] in Ha.
    edestruct (for_each_err (enumerate cc)) as (e & Ee); [exact Hi| |rewrite Ee in Ha; discriminate].
    intros a0. cbn [fst snd]. unfold cat_term, interacted. cbn [is_b negb]. rewrite Bool.andb_false_r.
    destruct (idx1_not2 _ (catm g i (second (PB T2mb)) 0%nat) I2) as (e & ->). eexists; reflexivity.
  - unfold S_sum_sq in Hv. destruct (base S _ _ _) as [b|]; [|discriminate]. cbn [bind] in Hv.
    edestruct (for_each_err (enumerate cc)) as (e & Ee); [exact Hi| |rewrite Ee in Hv; discriminate].
    intros a0. cbn [fst snd]. unfold cat_term, interacted. cbn [is_b negb]. rewrite Bool.andb_false_r.
    destruct (idx1_not2 _ (catm g i (second (PB T2mb)) 0%nat) I2) as (e & ->). eexists; reflexivity.
Qed.
End Run.
