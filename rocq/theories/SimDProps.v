(* Properties C104 to C108: data simulated by SimDynamicBLM. *)
From Coq Require Import Permutation Sorted.
From Verif Require Import Base UtilModel UtilSpec BLMModel BLMSpec SimModel SimSpec SimPropLemmas SimParamLemmas BLMPropLemmas
  DBLMModel DBLMSpec DBootModel DBootSpec SimDModel SimDSpec SimDRunLemmas SimDStatLemmas SimDCaseLemmas.
Local Open Scope R_scope.

Section Sim.
Variables nl nk : nat.
Variable cm : nat -> nat -> nat.
Variable cs : nat -> nat.
Variable q : rhos.
Variable g : wdraws.
Variable argsort : list R -> list nat.
Variable sort : list R -> list R.
Hypothesis argsort_ok : forall l, is_argsort l (argsort l).
Hypothesis sort_ok : sorts_ok sort.
Variables (o : opts) (d : pdraws) (cats : list catspec) (ctss : list ctsspec) (fuel : nat).
Local Notation dsim := (dsim nl nk cm cs q g argsort sort o d cats ctss fuel).

(* C104, default: worker types and firm types are in increasing order of their mean in
   the first period, by one reordering of all periods. *)
Theorem C104_order jd sd A S cc ct : dsim = Ok (jd, sd, (A, S, cc, ct)) ->
  stationary (ostat o) = false -> strictly o = false ->
  let p := par_of A S q in
  increasing nl (row_mean nk (dA p T12)) /\ increasing nk (col_mean nl (dA p T12)) /\
  exists s t, relabelling nl s /\ relabelling nk t /\
    (forall u l k, dA p u l k = mean_drawn o d u (s l) (t k)) /\
    (forall b k, dAb p b k = if off o (PB b) then 0 else mean_drawn_b o d b (t k)).
Proof. exact (run_order nl nk cm cs q g argsort sort argsort_ok o d cats ctss fuel jd sd A S cc ct). Qed.

(* C104, strictly_monotone_a: increasing by firm type for each worker type in all
   periods with worker types; each worker type keeps its values. *)
Theorem C104_monotone jd sd A S cc ct : dsim = Ok (jd, sd, (A, S, cc, ct)) ->
  stationary (ostat o) = false -> strictly o = true ->
  let p := par_of A S q in
  increasing nl (row_mean nk (dA p T12)) /\ (forall u l, increasing nk (dA p u l)) /\
  (forall b k, dAb p b k = if off o (PB b) then 0 else mean_drawn_b o d b k) /\
  exists s, relabelling nl s /\
    forall u l, Permutation (map (dA p u l) (range nk)) (map (mean_drawn o d u (s l)) (range nk)).
Proof. exact (run_monotone nl nk cm cs q g argsort sort argsort_ok sort_ok o d cats ctss fuel jd sd A S cc ct). Qed.

(* C104: the standard deviations are those drawn; what is switched off is zero. *)
Theorem C104_sds jd sd A S cc ct : dsim = Ok (jd, sd, (A, S, cc, ct)) -> stationary (ostat o) = false ->
  let p := par_of A S q in
  (forall u l k, dS p u l k = pd_S d u l k) /\ (forall b k, dSb p b k = if off o (PB b) then 0 else pd_Sb d b k).
Proof. exact (run_sds nl nk cm cs q g argsort sort o d cats ctss fuel jd sd A S cc ct). Qed.

(* C104: linear_additive holds in the result. *)
Theorem C104_additive jd sd A S cc ct : dsim = Ok (jd, sd, (A, S, cc, ct)) -> stationary (ostat o) = false ->
  additive_ o = true -> forall u, additive nl nk (dA (par_of A S q) u).
Proof. exact (run_additive nl nk cm cs q g argsort sort argsort_ok sort_ok o d cats ctss fuel jd sd A S cc ct). Qed.

(* C104 fails in the other periods: by default firm types need not be increasing over
   the average in another period than the first, and with strictly_monotone_a the
   effects '2mb' and '3mb' of firm types need not be increasing. *)
Theorem C104_other_periods_refuted :
  (exists g d jd sd A S cc ct,
     SimDModel.dsim 1 2 (fun _ _ => 1%nat) (fun _ => 3%nat) dq g argsort sort (dopts false false true true no_stat) d [] [] 3
     = Ok (jd, sd, (A, S, cc, ct)) /\ ~ increasing 2 (col_mean 1 (dA (par_of A S dq) T43))) /\
  (exists g d jd sd A S cc ct,
     SimDModel.dsim 1 2 (fun _ _ => 1%nat) (fun _ => 3%nat) dq g argsort sort (dopts true false true true no_stat) d [] [] 3
     = Ok (jd, sd, (A, S, cc, ct)) /\ forall b, ~ increasing 2 (dAb (par_of A S dq) b)).
Proof. exact (conj (down_other argsort sort argsort_ok) (down_b argsort sort argsort_ok sort_ok)). Qed.

(* C105 fails: with a stationarity option of the model and at least one mover there
   is no result, whatever is drawn. *)
Theorem C105_refuted k1 k2 : (k1 < nk)%nat -> (k2 < nk)%nat -> (0 < cm k1 k2)%nat ->
  stationary (ostat o) = true -> exists e, dsim = Err e.
Proof. exact (stationary_raises nl nk cm cs q g argsort sort o d cats ctss fuel k1 k2). Qed.

(* C105 fails for a categorical control variable interacted with the worker type. *)
Theorem C105_interacted_refuted k1 k2 c : (k1 < nk)%nat -> (k2 < nk)%nat -> (0 < cm k1 k2)%nat ->
  In c cats -> cat_int c = true -> stationary (cat_stat c) = true -> exists e, dsim = Err e.
Proof. exact (cat_stationary_raises nl nk cm cs q g argsort sort o d cats ctss fuel k1 k2 c). Qed.

(* C105 fails for an interacted continuous control variable, unless endogeneity and
   state dependence are off, or there are exactly as many movers as worker types. *)
Theorem C105_continuous_refuted jd sd A S cc ct c b : dsim = Ok (jd, sd, (A, S, cc, ct)) ->
  In c ctss -> cts_int c = true -> stationary (cts_stat c) = true -> off o (PB b) = false -> (2 <= nl)%nat ->
  jd = [] \/ length jd = nl.
Proof. exact (fun E => cts_int_rows nl nk cm cs q g argsort sort o d cats ctss fuel jd sd A S cc ct E c b). Qed.

(* C105 for a categorical control variable that is not interacted: equal in all
   periods if endogeneity and state dependence are on ... *)
Theorem C105_categorical jd sd A S cc ct i c k : dsim = Ok (jd, sd, (A, S, cc, ct)) ->
  nth_error cats i = Some c -> nth_error cc i = Some k -> cat_int c = false -> endo o = true -> sdep o = true ->
  (stat_A (cat_stat c) = true -> stat_var (cat_stat c) = false ->
     forall p l v, entry (get (c_A k) p) l v = cat_A c (PA T12) 0%nat v) /\
  (stat_S (cat_stat c) = true -> forall p l v, entry (get (c_S k) p) l v = cat_S c (PA T12) 0%nat v).
Proof.
  intros E Hc Hk I He Hs. pose proof (run_cat nl nk cm cs q g argsort sort o d cats ctss fuel jd sd A S cc ct E i c k Hc Hk) as G.
  split.
  - intros a v p l x. rewrite (cat_stat_A nl o c (c_A k) (c_S k) I a v G p l x), He, Hs. reflexivity.
  - intros a p l x. rewrite (cat_stat_S nl o c (c_A k) (c_S k) I a G p l x), He, Hs. reflexivity.
Qed.

(* ... and otherwise zero in every period, not only in the one switched off. *)
Theorem C105_categorical_refuted jd sd A S cc ct i c k : dsim = Ok (jd, sd, (A, S, cc, ct)) ->
  nth_error cats i = Some c -> nth_error cc i = Some k -> cat_int c = false -> endo o = false \/ sdep o = false ->
  (stat_A (cat_stat c) = true -> stat_var (cat_stat c) = false -> forall p l v, entry (get (c_A k) p) l v = 0) /\
  (stat_S (cat_stat c) = true -> forall p l v, entry (get (c_S k) p) l v = 0).
Proof.
  intros E Hc Hk I Hes. pose proof (run_cat nl nk cm cs q g argsort sort o d cats ctss fuel jd sd A S cc ct E i c k Hc Hk) as G.
  assert (F : endo o && sdep o = false) by (destruct Hes as [-> | ->]; [reflexivity|apply Bool.andb_false_r]).
  split.
  - intros a v p l x. rewrite (cat_stat_A nl o c (c_A k) (c_S k) I a v G p l x), F. reflexivity.
  - intros a p l x. rewrite (cat_stat_S nl o c (c_A k) (c_S k) I a G p l x), F. reflexivity.
Qed.

(* C105 for a continuous control variable: equal in the periods not switched off. *)
Theorem C105_continuous jd sd A S cc ct i c k : dsim = Ok (jd, sd, (A, S, cc, ct)) ->
  nth_error ctss i = Some c -> nth_error ct i = Some k ->
  (stat_A (cts_stat c) = true -> stat_var (cts_stat c) = false ->
     forall p l v, entry (get (c_A k) p) l v = if off o p then 0 else cts_A c (PA T12) v) /\
  (stat_S (cts_stat c) = true ->
     forall p l v, entry (get (c_S k) p) l v = if off o p then 0 else cts_S c (PA T12) v).
Proof.
  intros E Hc Hk. pose proof (run_cts nl nk cm cs q g argsort sort o d cats ctss fuel jd sd A S cc ct E i c k Hc Hk) as G.
  split.
  - intros a v. exact (cts_stat_A nl o c (c_A k) (c_S k) a v G).
  - intros a. exact (cts_stat_S nl o c (c_A k) (c_S k) a G).
Qed.

(* C105: stationary_firm_type_variation of control variables that are not interacted:
   the effects of two periods differ by a number. *)
Theorem C105_variation jd sd A S cc ct : dsim = Ok (jd, sd, (A, S, cc, ct)) ->
  (forall i c k, nth_error cats i = Some c -> nth_error cc i = Some k -> cat_int c = false -> stat_var (cat_stat c) = true ->
     forall p, off o p = false -> exists m, forall l v, entry (get (c_A k) p) l v = entry (get (c_A k) (PA T12)) l v + m) /\
  (forall i c k, nth_error ctss i = Some c -> nth_error ct i = Some k -> stat_var (cts_stat c) = true ->
     forall p, off o p = false -> exists m, forall l v, entry (get (c_A k) p) l v = entry (get (c_A k) (PA T12)) l v + m).
Proof.
  intros E. split.
  - intros i c k Hc Hk I a.
    exact (cat_stat_var nl o c (c_A k) (c_S k) I a (run_cat nl nk cm cs q g argsort sort o d cats ctss fuel jd sd A S cc ct E i c k Hc Hk)).
  - intros i c k Hc Hk a.
    exact (cts_stat_var nl o c (c_A k) (c_S k) a (run_cts nl nk cm cs q g argsort sort o d cats ctss fuel jd sd A S cc ct E i c k Hc Hk)).
Qed.

(* C106: cm k1 k2 movers from type k1 to type k2, cs k stayers of type k, no others;
   the firm type changes between the second and the third period. *)
Theorem C106_counts jd sd A S cc ct : dsim = Ok (jd, sd, (A, S, cc, ct)) ->
  (forall k1 k2, (k1 < nk)%nat -> (k2 < nk)%nat -> count (between k1 k2) jd = cm k1 k2) /\
  (forall k, (k < nk)%nat -> count (between k k) sd = cs k) /\
  Forall (fun o => exists k1 k2, (k1 < nk)%nat /\ (k2 < nk)%nat /\ d_g o = Q4 k1 k1 k2 k2) jd /\
  Forall (fun o => exists k, (k < nk)%nat /\ d_g o = Q4 k k k k) sd.
Proof. exact (run_counts nl nk cm cs q g argsort sort o d cats ctss fuel jd sd A S cc ct). Qed.

(* C106: workers are numbered from 0 without gaps, movers first; m tells them apart;
   firms change between the second and the third period, for stayers never. *)
Theorem C106_ids jd sd A S cc ct : dsim = Ok (jd, sd, (A, S, cc, ct)) ->
  map d_i (jd ++ sd) = range (length jd + length sd) /\
  Forall (fun o => d_m o = 1%nat /\ exists j1 j2, d_j o = Q4 j1 j1 j2 j2) jd /\
  Forall (fun o => d_m o = 0%nat /\ exists j, d_j o = Q4 j j j j) sd.
Proof. exact (run_ids nl nk cm cs q g argsort sort o d cats ctss fuel jd sd A S cc ct). Qed.

(* C106: firms are numbered from 0 without gaps, each has one type, and no type has
   all its stayers in one firm. *)
Theorem C106_firms jd sd A S cc ct : dsim = Ok (jd, sd, (A, S, cc, ct)) ->
  (forall k, (k < nk)%nat -> length (st_firm (frame g) k) = cs k) ->
  (exists n, forall j, (j < n)%nat <-> exists k, demploys sd k j) /\
  (forall k k' j, demploys sd k j -> demploys sd k' j -> k = k') /\
  (forall k j, demploys sd k j -> exists j', j' <> j /\ demploys sd k j').
Proof. exact (run_firms nl nk cm cs q g argsort sort o d cats ctss fuel jd sd A S cc ct). Qed.

(* C106: movers change firm, and their first firm has the first type of the row. *)
Theorem C106_first_firm jd sd A S cc ct : dsim = Ok (jd, sd, (A, S, cc, ct)) ->
  draws_ok nl nk cm cs (demploys sd) (frame g) ->
  Forall (fun o => at1 (d_j o) <> at4 (d_j o) /\ demploys sd (at1 (d_g o)) (at1 (d_j o))) jd.
Proof. exact (run_first nl nk cm cs q g argsort sort o d cats ctss fuel jd sd A S cc ct). Qed.

(* C106: the worker types are those drawn for the firm types. *)
Theorem C106_worker_types jd sd A S cc ct has : dsim = Ok (jd, sd, (A, S, cc, ct)) ->
  draws_ok nl nk cm cs has (frame g) ->
  (forall k1 k2, (k1 < nk)%nat -> (k2 < nk)%nat -> map d_l (filter (between k1 k2) jd) = mv_l (frame g) k1 k2) /\
  (forall k, (k < nk)%nat -> map d_l (filter (between k k) sd) = st_l (frame g) k).
Proof. exact (fun E => run_types nl nk cm cs q g argsort sort o d cats ctss fuel jd sd A S cc ct E has). Qed.

(* C106: the second firm has the second type of the row exactly if the rows are in
   order of the second type ... *)
Theorem C106_second_firm jd sd A S cc ct : dsim = Ok (jd, sd, (A, S, cc, ct)) ->
  draws_ok nl nk cm cs (demploys sd) (frame g) ->
  (Forall (fun o => demploys sd (at4 (d_g o)) (at4 (d_j o))) jd <-> StronglySorted le (map (fun o => at4 (d_g o)) jd)).
Proof. exact (run_second nl nk cm cs q g argsort sort o d cats ctss fuel jd sd A S cc ct). Qed.

(* ... which fails with movers up from a lower and down from a higher type. *)
Theorem C106_second_firm_refuted jd sd A S cc ct k1 k2 k1' k2' : dsim = Ok (jd, sd, (A, S, cc, ct)) ->
  draws_ok nl nk cm cs (demploys sd) (frame g) ->
  (k1 < k1' < nk)%nat -> (k2' < k2 < nk)%nat -> (0 < cm k1 k2)%nat -> (0 < cm k1' k2')%nat ->
  exists o, In o jd /\ ~ demploys sd (at4 (d_g o)) (at4 (d_j o)).
Proof. exact (fun E => run_second_wrong nl nk cm cs q g argsort sort o d cats ctss fuel jd sd A S cc ct E k1 k2 k1' k2'). Qed.

(* C107: without control variables the four wages of movers and of stayers are those
   of the dynamic model with the returned parameters, with the normal draws as shocks. *)
Theorem C107_movers jd sd A S cc ct r row : cats = [] -> ctss = [] -> dsim = Ok (jd, sd, (A, S, cc, ct)) ->
  nth_error jd r = Some row -> mover_follows (par_of A S q) row (zm g r).
Proof.
  exact (fun c1 c2 => plain_movers nl nk cm cs q g argsort sort o d cats ctss fuel jd sd A S r row c1 c2 cc ct).
Qed.
Theorem C107_stayers jd sd A S cc ct r row : cats = [] -> ctss = [] -> dsim = Ok (jd, sd, (A, S, cc, ct)) ->
  nth_error sd r = Some row -> (forall l k, 0 <= dS (par_of A S q) T2s l k) ->
  stayer_follows (par_of A S q) row (zs g r).
Proof.
  exact (fun c1 c2 => plain_stayers nl nk cm cs q g argsort sort o d cats ctss fuel jd sd A S r row c1 c2 cc ct).
Qed.

(* C108: the control variables of a row are those drawn for it, constant within a job. *)
Theorem C108_recorded jd sd A S cc ct : dsim = Ok (jd, sd, (A, S, cc, ct)) ->
  (forall r row, nth_error jd r = Some row ->
     drecords (length cats) (fun c => catm g c false r) (fun c => catm g c true r) (d_cat row) /\
     drecords (length ctss) (fun c => ctsm g c false r) (fun c => ctsm g c true r) (d_cts row)) /\
  (forall r row, nth_error sd r = Some row ->
     drecords (length cats) (fun c => cats_ g c false r) (fun c => cats_ g c true r) (d_cat row) /\
     drecords (length ctss) (fun c => ctss_ g c false r) (fun c => ctss_ g c true r) (d_cts row)).
Proof. exact (dsim_records nl nk cm cs q g argsort sort o d cats ctss fuel jd sd A S cc ct). Qed.

(* C108 holds for the means: each control variable adds its effect to the mean of a
   period.  To the variance it adds its standard deviation. *)
Theorem C108_movers jd sd A S cc ct r row : dsim = Ok (jd, sd, (A, S, cc, ct)) ->
  Forall (fun c => stationary (cat_stat c) = false) cats -> Forall (fun c => stationary (cts_stat c) = false) ctss ->
  sds (fun s => 0 <= s) cats ctss -> nth_error jd r = Some row ->
  mover_follows (with_controls (par_of A S q) (ctrl_mean o cats ctss row) (ctrl_sds o cats ctss row)) row (zm g r).
Proof.
  exact (fun E s1 s2 P => control_movers nl nk cm cs q g argsort sort o d cats ctss fuel s1 s2 P jd sd A S cc ct r row E).
Qed.
Theorem C108_stayers jd sd A S cc ct r row : dsim = Ok (jd, sd, (A, S, cc, ct)) ->
  Forall (fun c => stationary (cat_stat c) = false) cats -> Forall (fun c => stationary (cts_stat c) = false) ctss ->
  sds (fun s => 0 <= s) cats ctss -> nth_error sd r = Some row ->
  stayer_follows (with_controls (par_of A S q) (ctrl_mean o cats ctss row) (ctrl_sds o cats ctss row)) row (zs g r).
Proof.
  exact (fun E s1 s2 P => control_stayers nl nk cm cs q g argsort sort o d cats ctss fuel s1 s2 P jd sd A S cc ct r row E).
Qed.

(* C108 fails for the variances: with at least one control variable and standard
   deviations between 0 and 1 (the defaults are 0.3 to 0.5) no row with a nonzero shock
   in the second period has the wages of the model with the variances added. *)
Theorem C108_variance_refuted jd sd A S cc ct : dsim = Ok (jd, sd, (A, S, cc, ct)) ->
  Forall (fun c => stationary (cat_stat c) = false) cats -> Forall (fun c => stationary (cts_stat c) = false) ctss ->
  sds (fun s => 0 < s < 1) cats ctss -> cats <> [] \/ ctss <> [] ->
  (forall r row, nth_error jd r = Some row -> at2 (zm g r) <> 0 ->
     ~ mover_follows (with_controls (par_of A S q) (ctrl_mean o cats ctss row) (ctrl_var o cats ctss row)) row (zm g r)) /\
  (forall r row, nth_error sd r = Some row -> at2 (zs g r) <> 0 ->
     ~ stayer_follows (with_controls (par_of A S q) (ctrl_mean o cats ctss row) (ctrl_var o cats ctss row)) row (zs g r)).
Proof.
  exact (fun E s1 s2 P N => conj
    (fun r row => control_movers_not nl nk cm cs q g argsort sort o d cats ctss fuel s1 s2 P N jd sd A S cc ct r row E)
    (fun r row => control_stayers_not nl nk cm cs q g argsort sort o d cats ctss fuel s1 s2 P N jd sd A S cc ct r row E)).
Qed.
End Sim.

Print Assumptions C104_order.
Print Assumptions C104_monotone.
Print Assumptions C104_sds.
Print Assumptions C104_additive.
Print Assumptions C104_other_periods_refuted.
Print Assumptions C105_refuted.
Print Assumptions C105_interacted_refuted.
Print Assumptions C105_continuous_refuted.
Print Assumptions C105_categorical.
Print Assumptions C105_categorical_refuted.
Print Assumptions C105_continuous.
Print Assumptions C105_variation.
Print Assumptions C106_counts.
Print Assumptions C106_ids.
Print Assumptions C106_firms.
Print Assumptions C106_first_firm.
Print Assumptions C106_worker_types.
Print Assumptions C106_second_firm.
Print Assumptions C106_second_firm_refuted.
Print Assumptions C107_movers.
Print Assumptions C107_stayers.
Print Assumptions C108_recorded.
Print Assumptions C108_movers.
Print Assumptions C108_stayers.
Print Assumptions C108_variance_refuted.

(* Three worker types, two firm types, one mover between each pair, three stayers of
   each type: the options and control variables of the theorems give a result, and the
   draws are as required. *)
Example C104_case argsort sort str add e s : exists x, dcase argsort sort (dopts str add e s no_stat) [] [] = Ok x.
Proof. exact (dcase_plain argsort sort str add e s). Qed.
Example C105_case argsort sort e s sA sS :
  exists x, dcase argsort sort (dopts false false e s no_stat)
    [dcat false (mkstat sA sS false)] [dcts false (mkstat sA sS true)] = Ok x.
Proof. exact (dcase_stat argsort sort e s sA sS). Qed.
Example C105_error argsort sort cats ctss :
  exists e, dcase argsort sort (dopts false false true true (mkstat true false false)) cats ctss = Err e.
Proof.
  exact (C105_refuted 3 2 (fun _ _ => 1%nat) (fun _ => 3%nat) dq dframe argsort sort
    (dopts false false true true (mkstat true false false)) dpars cats ctss 3 0%nat 1%nat (le_S _ _ (le_n 1)) (le_n 2) (le_n 1) eq_refl).
Qed.
Example C106_case argsort sort : exists jd sd P,
  dcase argsort sort (dopts false false true true no_stat) [dcat true no_stat] [dcts false no_stat] = Ok (jd, sd, P) /\
  draws_ok 3 2 (fun _ _ => 1%nat) (fun _ => 3%nat) (demploys sd) sim_draws.
Proof.
  destruct (dcase_ok argsort sort false false true true true false) as ([[jd sd] P] & E).
  exists jd, sd, P. split; [exact E|exact (dcase_draws _ _ _ _ _ _ _ _ E)].
Qed.
Example C107_case argsort sort : exists jd sd A S cc ct,
  dcase argsort sort (dopts false false true true no_stat) [] [] = Ok (jd, sd, (A, S, cc, ct)) /\
  length jd = 4%nat /\ length sd = 6%nat /\ forall l k, dS (par_of A S dq) T2s l k = / 2.
Proof.
  destruct (dcase_plain argsort sort false false true true) as ([[jd sd] [[[A S] cc] ct]] & E).
  exists jd, sd, A, S, cc, ct. split; [exact E|].
  pose proof (C104_sds 3 2 _ _ dq dframe argsort sort _ dpars [] [] 3 jd sd A S cc ct E eq_refl) as [H _].
  destruct (run_rows _ _ _ _ _ _ _ _ _ _ _ _ _ _ _ _ _ _ _ E) as (jd0 & sd0 & E0 & F1 & F2).
  rewrite <- (SimLemmas.Forall2_length _ _ _ F1), <- (SimLemmas.Forall2_length _ _ _ F2).
  split; [|split; [|exact (H T2s)]]; cbv -[INR Rplus Rmult IZR] in E0; injection E0 as <- <-; reflexivity.
Qed.
Example C108_case argsort sort : exists jd sd A S cc ct,
  dcase argsort sort (dopts false false false true no_stat) [dcat true no_stat] [dcts false no_stat] = Ok (jd, sd, (A, S, cc, ct)) /\
  sds (fun s => 0 < s < 1) [dcat true no_stat] [dcts false no_stat] /\ (forall r, at2 (zm dframe r) <> 0).
Proof.
  destruct (dcase_ok argsort sort false false false true true false) as ([[jd sd] [[[A S] cc] ct]] & E).
  exists jd, sd, A, S, cc, ct. split; [exact E|]. split; [|intros r; cbn; lra].
  split; constructor; try constructor; intros; cbn; lra.
Qed.
