(* C97: data on which the recorded likelihood falls. *)
From Verif Require Import Base BaseLemmas UtilModel UtilSpec ConsModel ConsSpec ConsLemmas ConsPropLemmas
  BLMModel BLMEMModel BLMSpec BLMSortLemmas BLMNormLemmas BLMLikLemmas BLMEMLemmas BLMStayLemmas BLMRunModel
  BLMRunLemmas BLMPropLemmas BLMFitModel BLMFitSpec BLMFitLemmas BLMAscendLemmas
  BLMGenModel BLMGenSpec BLMGenLemmas BLMGenPropLemmas BLMCtlModel BLMCtlSpec BLMCtlLemmas BLMCtlStepLemmas
  BLMCtlRunLemmas BLMCtlPropLemmas BLMCtlRefLemmas.
From Coq Require Import ZArith Lia ZifyNat Permutation FunctionalExtensionality ClassicalEpsilon.
Local Open Scope res_scope.
Local Open Scope R_scope.

(* One worker type, one firm type, a column with one category; wages 1 and -1. *)
Definition fcats : list gcol := [mkgcol 1 true None None].
Definition fset : gset := mkgset None None None None (1 / 4) 0 0 false false false PFirst.
Definition fctl : cset := mkcset true true false 2 0 1 5 5 fset.
Definition frow (y : R) : obs := mkobs y y 0 0 1 1 [0%nat] [0%nat] [] [].
Definition fdata : list obs := [frow 1; frow (-1)].
Definition fmat (x : R) : mat := fun _ _ => x.
Definition fpar : par := let v := fmat (sqrt (1 / 2)) in
  mkpar (fmat 0) (fmat 0) v v [Inter (fmat 0)] [Inter (fmat 0)] [Inter v] [Inter v] [] [] [] [] (fmat 1) (fmat 1) (fmat 0) (fun _ => 0).

Lemma fdata_ok s : ctl_data 1 fcats [] fdata s.
Proof.
  split; [split|split].
  - repeat constructor; cbn; try lia; lra.
  - intros k Hk. assert (k = 0)%nat as -> by lia. split; exists (frow 1); cbn; auto.
  - repeat constructor.
  - intros j t Hj. cbn in Hj. assert (j = 0)%nat as -> by lia. split.
    + intros o [<-|[<-|[]]]; destruct t; cbn; lia.
    + intros n Hn. cbn in Hn. assert (n = 0)%nat as -> by lia. exists (frow 1). destruct t; cbn; auto.
Qed.
Lemma half_pos : 0 < sqrt (1 / 2). Proof. apply sqrt_lt_R0. lra. Qed.
Lemma fpar_ok s : ctl_par 1 1 fcats [] s fpar.
Proof.
  pose proof half_pos as H. split; [|split].
  - intros t. destruct t; cbn; repeat constructor.
  - intros b t l n Hb Hl Hn. destruct b as [|j|j].
    + destruct t; exact H.
    + apply (in_cat 1 1 fcats [] ltac:(lia) ltac:(lia)) in Hb. cbn in Hb. assert (j = 0)%nat as -> by lia. destruct t; exact H.
    + apply (in_cts 1 1 fcats [] ltac:(lia) ltac:(lia)) in Hb. cbn in Hb. lia.
  - intros. cbn. unfold fmat. lra.
Qed.
Lemma fvalid : all_valid fset 1 1 (fcats ++ []).
Proof. split; [intros o []|]. intros c o [<-|[]] []. Qed.

(* What matters of the parameters. *)
Definition catp (t : bool) (p : par) : R := cat_sum 0 (Acatp t p) [0%nat].
Definition zero_means (p : par) : Prop := forall t,
  Ap t p 0%nat 0%nat = 0 /\ catp t p = 0 /\ Actsp t p = [] /\ exists a, Acatp t p = [a].
Lemma fmu t p y : zero_means p -> mu t p 0 (frow y) = 0.
Proof.
  intros Z. destruct (Z t) as (Z1 & Z2 & Z3 & _). rewrite mu_unfold. unfold catp in Z2.
  replace (gp t (frow y)) with 0%nat by (destruct t; reflexivity).
  replace (cp t (frow y)) with [0%nat] by (destruct t; reflexivity).
  rewrite Z1, Z2, Z3. cbn. ring.
Qed.
Lemma ftotal f : total 1 fdata f
  = (f false 0%nat (frow 1) + f true 0%nat (frow 1)) + (f false 0%nat (frow (-1)) + f true 0%nat (frow (-1))).
Proof. unfold total, fdata, sumn, range. cbn [map rsum seq]. ring. Qed.

Section Iter.
Variable s : gset.
Hypothesis s_ok : s = fset \/ s = forced fset.
Variable q : obs -> nat -> R.
Hypothesis q_one : forall o, In o fdata -> q o 0%nat = 1.
Notation blocks := (blocks fcats []).

Lemma blocks_are : blocks = [Firm; Cat 0]. Proof. reflexivity. Qed.
Lemma fweight b p t y : In b blocks -> In (frow y) fdata -> weight b q p t 0 (frow y) = / sd b p t 0%nat 0%nat ^ 2.
Proof.
  intros Hb Ho. unfold weight. rewrite (q_one _ Ho).
  replace (wp t (frow y)) with 1 by (destruct t; reflexivity).
  replace (key b t (frow y)) with 0%nat; [unfold Rdiv; ring|].
  rewrite blocks_are in Hb. destruct Hb as [<-|[<-|[]]]; destruct t; reflexivity.
Qed.
Lemma in1 : In (frow 1) fdata. Proof. now left. Qed.
Lemma in2 : In (frow (-1)) fdata. Proof. right; now left. Qed.

(* the mean after block b is set *)
Lemma fmu_with b a p t y : In b blocks -> zero_means p -> mu t (with_A 1 fcats [] s b a p) 0 (frow y) = a t 0%nat 0%nat.
Proof.
  intros Hb Z. destruct (Z t) as (Z1 & Z2 & Z3 & (ac & Z4)). rewrite mu_unfold, A_field, Ac_field, Ax_field.
  replace (gp t (frow y)) with 0%nat by (destruct t; reflexivity).
  replace (cp t (frow y)) with [0%nat] by (destruct t; reflexivity).
  rewrite blocks_are in Hb. destruct Hb as [<-|[<-|[]]].
  - unfold catp in Z2. rewrite Z2, Z3. cbn. ring.
  - rewrite Z1, Z3, Z4. cbn. ring.
Qed.
Lemma A_loss_val b a p : In b blocks -> zero_means p ->
  A_loss 1 fdata b q p (with_A 1 fcats [] s b a p)
  = / sd b p false 0%nat 0%nat ^ 2 * (2 + 2 * a false 0%nat 0%nat ^ 2) + / sd b p true 0%nat 0%nat ^ 2 * (2 + 2 * a true 0%nat 0%nat ^ 2).
Proof.
  intros Hb Z. unfold A_loss. rewrite ftotal. rewrite !fweight by (auto using in1, in2).
  unfold resid_sq. rewrite !fmu_with by assumption. cbn [yp frow y1 y2]. ring.
Qed.
Lemma zero_ok b k0 : In b blocks -> A_ok 1 1 fcats [] s b k0 (fun _ _ _ => 0).
Proof.
  intros Hb. exists (fun _ => 0). split; [intros t l n _ _; reflexivity|].
  assert (Hn : forall o, In o (optl (gc_a (column 1 fcats [] s b)) ++ optl (p_a_all s)) -> False).
  { intros o. destruct s_ok as [-> | ->]; rewrite blocks_are in Hb; destruct Hb as [<-|[<-|[]]]; cbn; tauto. }
  split; [intros o d Ho; destruct (Hn o Ho)|]. split; [intros _ t k l l' _ _ _ _; reflexivity|].
  intros _ _ _. split; [intros l Hl; lia|]. destruct s_ok as [-> | ->]; discriminate.
Qed.
Lemma A_keeps k0 b p p' : In b blocks -> sd_pos 1 1 fcats [] s p -> zero_means p ->
  A_done 1 1 fcats [] fdata s k0 q b p p' -> zero_means p'.
Proof.
  intros Hb Hp Z [(a & [_ Ha] & ->)|[_ ->]]; [|exact Z].
  specialize (Ha _ (zero_ok b k0 Hb)). cbn beta in Ha. rewrite !A_loss_val in Ha by assumption.
  assert (W : forall t, 0 < / sd b p t 0%nat 0%nat ^ 2).
  { intros t. apply Rinv_0_lt_compat, pow_lt. apply (Hp b t 0%nat 0%nat Hb); [lia|].
    rewrite blocks_are in Hb; destruct Hb as [<-|[<-|[]]]; cbn; lia. }
  pose proof (W false) as W1. pose proof (W true) as W2.
  set (u := / sd b p false 0%nat 0%nat ^ 2) in *. set (v := / sd b p true 0%nat 0%nat ^ 2) in *.
  assert (a0 : forall t, a t 0%nat 0%nat = 0).
  { pose proof (pow2_ge_0 (a false 0%nat 0%nat)) as P1. pose proof (pow2_ge_0 (a true 0%nat 0%nat)) as P2.
    pose proof (Rmult_le_pos u _ (Rlt_le _ _ W1) P1) as P3. pose proof (Rmult_le_pos v _ (Rlt_le _ _ W2) P2) as P4.
    intros t. apply Rsqr_0_uniq. unfold Rsqr.
    assert (u * a false 0%nat 0%nat ^ 2 = 0) as Q1 by lra. assert (v * a true 0%nat 0%nat ^ 2 = 0) as Q2 by lra.
    apply Rmult_integral in Q1 as [Q1|Q1]; [lra|]. apply Rmult_integral in Q2 as [Q2|Q2]; [lra|]. destruct t; lra. }
  intros t. destruct (Z t) as (Z1 & Z2 & Z3 & (ac & Z4)). unfold catp. rewrite A_field, Ac_field, Ax_field.
  rewrite blocks_are in Hb. destruct Hb as [<-|[<-|[]]].
  - split; [apply a0|]. split; [exact Z2|]. split; [exact Z3|]. now exists ac.
  - split; [exact Z1|]. rewrite Z3, Z4. cbn. split; [rewrite a0; ring|]. split; [reflexivity|]. eexists; reflexivity.
Qed.

Lemma one_ok b : In b blocks -> V_ok 1 1 fcats [] s b (fun _ _ _ => 1).
Proof.
  intros Hb. exists (fun _ => 1). split; [intros t l n _ _; reflexivity|].
  assert (Hn : forall o, In o (optl (gc_s (column 1 fcats [] s b)) ++ optl (p_s_all s)) -> False).
  { intros o. destruct s_ok as [-> | ->]; rewrite blocks_are in Hb; destruct Hb as [<-|[<-|[]]]; cbn; tauto. }
  split; [intros t l k _ _ _; unfold eff; destruct s_ok as [-> | ->]; cbn; lra|].
  split; [intros o d Ho; destruct (Hn o Ho)|]. intros _ t k l l' _ _ _ _; reflexivity.
Qed.
Lemma V_loss_val b p v : In b blocks -> sd_pos 1 1 fcats [] s p -> zero_means p ->
  V_loss 1 fdata b q p v
  = / sd b p false 0%nat 0%nat ^ 2 * (2 * (1 - v false 0%nat 0%nat) ^ 2) + / sd b p true 0%nat 0%nat ^ 2 * (2 * (1 - v true 0%nat 0%nat) ^ 2).
Proof.
  intros Hb Hp Z. unfold V_loss. rewrite ftotal. rewrite !fweight by (auto using in1, in2).
  assert (Q0 : forall o l, In o fdata -> (l < 1)%nat -> 0 <= q o l).
  { intros o l Ho Hl. assert (l = 0)%nat as -> by lia. rewrite q_one by exact Ho. lra. }
  rewrite !(V_reg_one 1 1 fcats [] fdata s ltac:(lia) ltac:(lia) (fdata_ok s) q Q0 b p) by
    (auto; rewrite blocks_are in Hb; destruct Hb as [<-|[<-|[]]]; discriminate).
  unfold resid_sq. rewrite !fmu by assumption.
  assert (E : forall t y, key b t (frow y) = 0%nat)
    by (intros t y; rewrite blocks_are in Hb; destruct Hb as [<-|[<-|[]]]; destruct t; reflexivity).
  rewrite !E. cbn [yp frow y1 y2]. ring.
Qed.
Lemma V_one b p p' : In b blocks -> sd_pos 1 1 fcats [] s p -> zero_means p ->
  V_done 1 1 fcats [] fdata s q p p' b -> forall t, sd b p' t 0%nat 0%nat = 1.
Proof.
  intros Hb Hp Z H t.
  assert (Hs : (0 < size 1 fcats [] s b)%nat) by (rewrite blocks_are in Hb; destruct Hb as [<-|[<-|[]]]; cbn; lia).
  assert (W : forall t, 0 < / sd b p t 0%nat 0%nat ^ 2).
  { intros t'. apply Rinv_0_lt_compat, pow_lt. apply (Hp b t' 0%nat 0%nat Hb); [lia|exact Hs]. }
  pose proof (W false) as W1. pose proof (W true) as W2.
  assert (L0 : V_loss 1 fdata b q p (fun _ _ _ => 1) = 0) by (rewrite V_loss_val by assumption; ring).
  assert (Lp : forall v, 0 <= V_loss 1 fdata b q p v).
  { intros v. rewrite V_loss_val by assumption. pose proof (pow2_ge_0 (1 - v false 0%nat 0%nat)).
    pose proof (pow2_ge_0 (1 - v true 0%nat 0%nat)).
    apply Rplus_le_le_0_compat; apply Rmult_le_pos; lra. }
  destruct H as [(v & [_ Hv] & E)|[No _]].
  2:{ destruct (No (fun _ _ _ => 1)). split; [now apply one_ok|]. intros v _. rewrite L0. apply Lp. }
  specialize (Hv _ (one_ok b Hb)). rewrite L0, V_loss_val in Hv by assumption.
  set (u := / sd b p false 0%nat 0%nat ^ 2) in *. set (w := / sd b p true 0%nat 0%nat ^ 2) in *.
  assert (a0 : forall t, 1 - v t 0%nat 0%nat = 0).
  { pose proof (pow2_ge_0 (1 - v false 0%nat 0%nat)) as P1. pose proof (pow2_ge_0 (1 - v true 0%nat 0%nat)) as P2.
    pose proof (Rmult_le_pos u _ (Rlt_le _ _ W1) P1) as P3. pose proof (Rmult_le_pos w _ (Rlt_le _ _ W2) P2) as P4.
    intros t'. apply Rsqr_0_uniq. unfold Rsqr.
    assert (u * (1 - v false 0%nat 0%nat) ^ 2 = 0) as Q1 by lra. assert (w * (1 - v true 0%nat 0%nat) ^ 2 = 0) as Q2 by lra.
    apply Rmult_integral in Q1 as [Q1|Q1]; [lra|]. apply Rmult_integral in Q2 as [Q2|Q2]; [lra|]. destruct t'; lra. }
  rewrite E by (try lia; exact Hs). replace (v t 0%nat 0%nat) with 1 by (specialize (a0 t); lra). apply sqrt_1.
Qed.
End Iter.

Lemma fiteration s c k0 p p' : s = fset \/ s = forced fset -> cs_a c = true -> cs_s c = true -> cs_pk1 c = false ->
  ctl_par 1 1 fcats [] s p -> zero_means p -> iteration 1 1 fcats [] fdata s c k0 p p' ->
  pk1 p' = pk1 p /\ zero_means p' /\ forall t y, var t p' 0 (frow y) = 2.
Proof.
  intros Hs Ea Es Ek G Z (p1 & p2 & H1 & H2 & H3). rewrite Ek in H1. subst p1. rewrite Ea in H2. rewrite Es in H3.
  destruct H3 as (SB & K & V).
  assert (Q : forall o, In o fdata -> bayes 1 1 p o 0 = 1).
  { intros o Ho. pose proof (bayes_one 1 1 fcats [] fdata (mkcset true true true 0 0 0 0 0 s) ltac:(lia) (fdata_ok s) p o G Ho) as E.
    unfold sumn, range in E. cbn [seq map rsum] in E. lra. }
  rewrite blocks_are in H2. destruct H2 as (p3 & A1' & p4 & A2' & ->).
  assert (Hp : sd_pos 1 1 fcats [] s p) by (exact (proj1 (proj2 G))).
  assert (B0 : In Firm (blocks fcats [])) by (now left). assert (B1 : In (Cat 0) (blocks fcats [])) by (right; now left).
  assert (SD : forall b k q p p', A_done 1 1 fcats [] fdata s k q b p p' -> (forall b', sd b' p' = sd b' p) /\ pk1 p' = pk1 p).
  { intros b k q r r' [(a & _ & ->)|[_ ->]]; [|auto]. split; [intros; apply sd_field|]. destruct b; reflexivity. }
  destruct (SD _ _ _ _ _ A1') as [S3 X3]. destruct (SD _ _ _ _ _ A2') as [S4 X4].
  pose proof (A_keeps s Hs _ Q k0 Firm p p3 B0 Hp Z A1') as Z3.
  assert (Hp3 : sd_pos 1 1 fcats [] s p3) by (intros b t l n Hb Hl Hn; rewrite S3; now apply Hp).
  pose proof (A_keeps s Hs _ Q k0 (Cat 0) p3 p4 B1 Hp3 Z3 A2') as Z4.
  assert (Hp4 : sd_pos 1 1 fcats [] s p4) by (intros b t l n Hb Hl Hn; rewrite S4; now apply Hp3).
  pose proof (V_one s Hs _ Q Firm p4 p' B0 Hp4 Z4 (V Firm B0)) as V1.
  pose proof (V_one s Hs _ Q (Cat 0) p4 p' B1 Hp4 Z4 (V (Cat 0) B1)) as V2.
  destruct SB as (a1 & a2 & a3 & a4 & a5 & a6 & a7 & _).
  split; [congruence|]. split.
  - intros t. destruct (Z4 t) as (z1 & z2 & z3 & z4). unfold catp in *.
    destruct t; cbn [Ap Acatp Actsp] in *; rewrite ?a1, ?a2, ?a3, ?a4, ?a5, ?a6; auto.
  - intros t y. destruct (K t) as [K1 K2]. specialize (V1 t). specialize (V2 t). cbn [sd] in V1, V2.
    unfold fcats in K1. inversion K1 as [|? a ? ? Ka K1' E1 E2]; subst. inversion K1'; subst.
    inversion K2; subst.
    transitivity (Sp t p' 0%nat 0%nat ^ 2 + rsum (map2 (fun a n => cat_at 0 n a ^ 2) (Scatp t p') [0%nat])
      + rsum (map (fun a => cts_sd 0 a ^ 2) (Sctsp t p'))); [destruct t; reflexivity|].
    rewrite <- E2 in V2 |- *. match goal with H : [] = Sctsp t p' |- _ => rewrite <- H end.
    cbn [nth] in V2. cbn. rewrite V1, V2. ring.
Qed.

(* ---- the likelihood ---- *)
Lemma fdensity p v y : 0 < v -> y ^ 2 = 1 -> zero_means p -> (forall t, var t p 0 (frow y) = v) ->
  mover_density p (frow y) 0 = Rpower (normal_density y 0 (sqrt v)) 1 * Rpower (normal_density y 0 (sqrt v)) 1.
Proof.
  intros Hv Hy Z V. pose proof (V false) as V1. pose proof (V true) as V2. cbn [var] in V1, V2.
  pose proof (fmu false p y Z) as M1. pose proof (fmu true p y Z) as M2. cbn [mu] in M1, M2.
  unfold mover_density. rewrite V1, V2, M1, M2. reflexivity.
Qed.
Lemma flik p v : 0 < v -> zero_means p -> pk1 p 0%nat 0%nat = 1 -> (forall t y, var t p 0 (frow y) = v) ->
  movers_loglik 1 1 p fdata = - ln v - / v - 2 * ln (sqrt (2 * PI)).
Proof.
  intros Hv Z Pk V. unfold movers_loglik, fdata. cbn [map rsum length].
  assert (L : forall y, y ^ 2 = 1 -> ln (mixture 1 (pk1 p (g1 (frow y) + 1 * g2 (frow y))%nat) (mover_density p (frow y)))
    = - ln v - / v - 2 * ln (sqrt (2 * PI))).
  { intros y Hy. unfold mixture, sumn, range. cbn [seq map rsum frow g1 g2]. rewrite (fdensity p v y) by auto.
    change (0 + 1 * 0)%nat with 0%nat. rewrite Pk.
    assert (S : 0 < sqrt v) by (now apply sqrt_lt_R0). pose proof (normal_density_pos y 0 _ S) as N.
    rewrite Rmult_1_l, Rplus_0_r, !Rpower_1 by exact N. rewrite ln_mult by exact N. rewrite ln_normal by exact S.
    assert (E : ln v = 2 * ln (sqrt v)).
    { rewrite <- (sqrt_sqrt v) at 1 by lra. rewrite ln_mult by exact S. ring. }
    rewrite E. replace ((y - 0) ^ 2) with 1 by (rewrite Rminus_0_r; auto).
    replace (sqrt v ^ 2) with v by (replace (sqrt v ^ 2) with (sqrt v * sqrt v) by ring; now rewrite sqrt_sqrt by lra).
    field. lra. }
  rewrite !L by ring. change (INR 2) with 2. field. lra.
Qed.
Lemma ln2_gt : / 2 < ln 2.
Proof.
  assert (E : exp (/ 2) * exp (/ 2) = exp 1) by (rewrite <- exp_plus; f_equal; lra).
  pose proof exp_le_3. pose proof (exp_pos (/ 2)).
  assert (exp (/ 2) < 2) by nra.
  rewrite <- (ln_exp (/ 2)). apply ln_increasing; assumption.
Qed.

Lemma frelabelled p1 p0 sg : but_pk0 fpar p1 -> relabelling 1 sg -> relabelled 1 1 sg (fun k => k) p1 p0 ->
  zero_means p0 /\ pk1 p0 0%nat 0%nat = 1 /\ forall t y, var t p0 0 (frow y) = 1.
Proof.
  intros [f ->] R1 Hr. set (pf := mkpar _ _ _ _ _ _ _ _ _ _ _ _ _ _ _ _) in *.
  assert (L : (0 < 1)%nat) by lia. split; [|split].
  - intros t. destruct (r_A _ _ _ _ _ _ Hr 0%nat 0%nat L L) as [H1 H2].
    pose proof (r_A1_cat _ _ _ _ _ _ Hr) as C1. pose proof (r_A2_cat _ _ _ _ _ _ Hr) as C2.
    pose proof (r_A1_cts _ _ _ _ _ _ Hr) as X1. pose proof (r_A2_cts _ _ _ _ _ _ Hr) as X2.
    cbn in H1, H2, C1, C2, X1, X2.
    inversion C1 as [|? a1 ? ? Ca1 C1' E1 E1']; subst. inversion C1'; subst.
    inversion C2 as [|? a2 ? ? Ca2 C2' E2 E2']; subst. inversion C2'; subst.
    inversion X1 as [E3 E4|]; subst. inversion X2 as [E5 E6|]; subst.
    destruct t; cbn [Ap Acatp Actsp catp].
    + split; [exact H2|]. unfold catp. cbn [Acatp]. rewrite <- E2'. destruct a2; [|destruct Ca2].
      split; [cbn; rewrite Ca2 by lia; unfold fmat; ring|]. split; [congruence|]. eexists; reflexivity.
    + split; [exact H1|]. unfold catp. cbn [Acatp]. rewrite <- E1'. destruct a1; [|destruct Ca1].
      split; [cbn; rewrite Ca1 by lia; unfold fmat; ring|]. split; [congruence|]. eexists; reflexivity.
  - pose proof (r_pk1 _ _ _ _ _ _ Hr 0%nat 0%nat 0%nat) as H. cbn in H. apply H; lia.
  - intros t y. assert (Hsr : same_row 1 (fun k => k) (frow y) (frow y)) by (unfold same_row; cbn; repeat split; lia).
    assert (V : forall l, (l < 1)%nat -> sqrt (1 / 2) ^ 2 + (sqrt (1 / 2) ^ 2 + 0) + 0 = 1).
    { intros _ _. replace (sqrt (1 / 2) ^ 2) with (sqrt (1 / 2) * sqrt (1 / 2)) by ring. rewrite sqrt_sqrt by lra. lra. }
    destruct t; cbn [var].
    + rewrite (var2_relabelled 1 1 sg _ pf p0 (frow y) (frow y) 0%nat Hr Hsr L). cbn -[pow]. now apply (V 0%nat).
    + rewrite (var1_relabelled 1 1 sg _ pf p0 (frow y) (frow y) 0%nat Hr Hsr L). cbn -[pow]. now apply (V 0%nat).
Qed.

Lemma frun s c k p1 qs pn : s = fset \/ s = forced fset -> cs_gen c = s -> cs_a c = true -> cs_s c = true -> cs_pk1 c = false ->
  cs_iters c = 2%nat -> cs_threshold c = 0 -> but_pk0 fpar p1 -> run 1 1 fcats [] fdata s c k p1 qs pn ->
  exists l0 l1, recorded_liks 1 1 fdata c (map fst qs) = [l0; l1] /\ l1 < l0.
Proof.
  intros Hs Eg Ea Es Ek Ei Et B (sg & p0 & stop & R1 & Hr & P & L & Ls & St). rewrite Ei in L, Ls.
  assert (stop = false) as ->.
  { destruct stop; [|reflexivity]. exfalso. destruct (proj2 (St qs [] ltac:(now rewrite app_nil_r)) (conj eq_refl eq_refl))
      as ((l0 & a & b & _ & E) & _). rewrite Et in E. pose proof (Rabs_pos (b - a)). lra. }
  specialize (Ls eq_refl). destruct qs as [|[q0 k0] [|[q1 k1] [|? ?]]]; cbn in Ls; try lia.
  destruct P as (-> & _ & [(X & _)|(q' & It & P)]); [discriminate|]. destruct P as (-> & _ & _).
  destruct (frelabelled p1 p0 sg B R1 Hr) as (Z0 & P0 & V0).
  assert (G : ctl_par 1 1 fcats [] s p0).
  { subst s. apply (relabelled_good 1 1 fcats [] c ltac:(lia) ltac:(lia) p1 p0 sg (fun k => k) R1 (fun _ => eq_refl) Hr).
    apply (good_but _ _ _ _ _ fpar p1 B). apply fpar_ok. }
  destruct (fiteration s c k0 p0 q' Hs Ea Es Ek G Z0 It) as (P1 & Z1 & V1).
  unfold recorded_liks, enumerate. cbn [map fst snd length seq combine].
  eexists _, _. split; [reflexivity|]. unfold recorded_lik. rewrite Ek, !andb_false_r, !Rplus_0_r.
  rewrite (flik p0 1) by (auto; lra). rewrite (flik q' 2) by (auto; try lra; congruence).
  rewrite ln_1. pose proof ln2_gt. lra.
Qed.

Lemma falls argsort solver nnm : (forall l, is_argsort l (argsort l)) -> exact_qp solver -> complete_qp solver ->
  exists p' lik l0 l1, fit_movers_ctl argsort solver 1 1 fcats [] fdata fctl nnm fpar = Ok (p', lik, [l0; l1]) /\ l1 < l0.
Proof.
  intros sorts ex co.
  destruct (movers_ok argsort solver 1 1 fcats [] fdata sorts ex co ltac:(lia) ltac:(lia) (Forall_nil _) fctl
    (fdata_ok _) fvalid ltac:(cbn; lra) (fun _ => eq_refl) ltac:(discriminate) nnm fpar (fpar_ok _))
    as (p' & qs & pn & sg & E & _ & _ & _ & H).
  assert (F : exists l0 l1, recorded_liks 1 1 fdata fctl (map fst qs) = [l0; l1] /\ l1 < l0).
  { destruct H as [(_ & R & _)|(_ & p1 & k & runs & B & Hk & Er & Hj)].
    - apply (frun fset fctl 0 fpar qs pn); auto. exists (pk0 fpar). reflexivity.
    - destruct (Hj k Hk) as [R _]. rewrite Er in R. cbn [fst snd] in R.
      exact (frun (forced fset) (cforced fctl) k p1 qs pn (or_intror eq_refl) eq_refl eq_refl eq_refl eq_refl eq_refl eq_refl B R). }
  destruct F as (l0 & l1 & F & Hl). exists p', (last_lik (recorded_liks 1 1 fdata fctl (map fst qs))), l0, l1.
  split; [rewrite <- F; exact E|exact Hl].
Qed.

(* ---- a solver that is exact and complete ---- *)
Definition ideal_qp (P q : list R) (pb : problem) : qpres :=
  match excluded_middle_informative (exists x, length x = length P /\ feasible pb (fun i => nth i x 0) /\
      (forall z, feasible pb z -> qobj P q (fun i => nth i x 0) <= qobj P q z)) with
  | left H => QSol (proj1_sig (constructive_indefinite_description _ H))
  | right _ => QNone
  end.
Lemma ideal_qp_exact : exact_qp ideal_qp.
Proof.
  intros P q pb x. unfold ideal_qp. destruct (excluded_middle_informative _) as [H|]; [|discriminate].
  intros E. injection E as <-. exact (proj2_sig (constructive_indefinite_description _ H)).
Qed.
Lemma ideal_qp_complete : complete_qp ideal_qp.
Proof.
  intros P q pb x Hx. unfold ideal_qp. destruct (excluded_middle_informative _) as [H|H]; [eexists; reflexivity|].
  exfalso. apply H. now exists x.
Qed.

(* ---- a case with two worker types, two firm types and both kinds of columns ---- *)
Definition ecats : list gcol := [mkgcol 2 false (Some [CStationary 1%Z 2]) None].
Definition ectss : list gcol := [mkgcol 1 true None None].
Definition erow (y x : R) (k1 k2 n1 n2 : nat) : obs := mkobs y (y + x) k1 k2 1 2 [n1] [n2] [x] [- x].
Definition edata : list obs := [erow 1 1 0 0 0 1; erow 2 3 0 1 1 0; erow 4 2 1 0 0 1; erow 3 5 1 1 1 0].
Definition epar : par :=
  let a : mat := fun l k => INR (l + k) in
  mkpar a a (fmat 1) (fmat 1) [Shared (fun n => INR n)] [Shared (fun n => INR n)] [Shared (fun _ => 1)] [Shared (fun _ => 1)]
    [XInter (fun l => INR l)] [XInter (fun l => INR l)] [XInter (fun _ => 1)] [XInter (fun _ => 1)]
    (fmat (1 / 2)) (fmat (1 / 2)) (fmat 0) (fun _ => 0).
Lemma edata_ok s : ctl_data 2 ecats ectss edata s.
Proof.
  split; [split|split].
  - repeat constructor; cbn; try lia; lra.
  - intros k Hk. destruct k as [|[|k]]; [| |lia].
    + split; [exists (erow 1 1 0 0 0 1)|exists (erow 1 1 0 0 0 1)]; cbn; auto.
    + split; [exists (erow 3 5 1 1 1 0)|exists (erow 3 5 1 1 1 0)]; cbn; tauto.
  - repeat constructor.
  - intros j t Hj. cbn in Hj. assert (j = 0)%nat as -> by lia. split.
    + intros o [<-|[<-|[<-|[<-|[]]]]]; destruct t; cbn; lia.
    + intros n Hn. cbn in Hn. destruct n as [|[|n]]; [| |lia]; destruct t.
      * exists (erow 2 3 0 1 1 0). cbn; auto.
      * exists (erow 1 1 0 0 0 1). cbn; auto.
      * exists (erow 1 1 0 0 0 1). cbn; auto.
      * exists (erow 2 3 0 1 1 0). cbn; auto.
Qed.
Lemma epairs : all_pairs 2 edata.
Proof.
  intros k1 k2 H1 H2. destruct k1 as [|[|k1]]; [| |lia]; destruct k2 as [|[|k2]]; try lia; unfold edata.
  - exists (erow 1 1 0 0 0 1). cbn; auto.
  - exists (erow 2 3 0 1 1 0). cbn; auto.
  - exists (erow 4 2 1 0 0 1). cbn; auto.
  - exists (erow 3 5 1 1 1 0). cbn; tauto.
Qed.
Lemma epar_ok s : ctl_par 2 2 ecats ectss s epar.
Proof.
  split; [|split].
  - intros t. destruct t; cbn; repeat constructor.
  - intros b t l n Hb Hl Hn. destruct b as [|j|j].
    + destruct t; cbn; unfold fmat; lra.
    + apply (in_cat 2 2 ecats ectss ltac:(lia) ltac:(lia)) in Hb. cbn in Hb. assert (j = 0)%nat as -> by lia. destruct t; cbn; lra.
    + apply (in_cts 2 2 ecats ectss ltac:(lia) ltac:(lia)) in Hb. cbn in Hb. assert (j = 0)%nat as -> by lia. destruct t; cbn; lra.
  - intros. cbn. unfold fmat. lra.
Qed.
