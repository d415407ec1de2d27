(* C97: the fitted variances with control variables, and examples. *)
From Verif Require Import Base BaseLemmas UtilModel UtilSpec ConsModel ConsSpec ConsLemmas ConsPropLemmas
  BLMModel BLMEMModel BLMSpec BLMSortLemmas BLMNormLemmas BLMLikLemmas BLMEMLemmas BLMStayLemmas BLMRunModel
  BLMRunLemmas BLMPropLemmas BLMFitModel BLMFitSpec BLMFitLemmas BLMAscendLemmas
  BLMGenModel BLMGenSpec BLMGenLemmas BLMGenPropLemmas BLMCtlModel BLMCtlSpec BLMCtlLemmas BLMCtlStepLemmas
  BLMCtlRunLemmas BLMCtlPropLemmas.
From Coq Require Import ZArith Lia ZifyNat Permutation FunctionalExtensionality ClassicalEpsilon.
Local Open Scope res_scope.
Local Open Scope R_scope.

(* A vector with given values. *)
Lemma pack nl n (v : vals) : exists x, forall (t : bool) l k, (l < nl)%nat -> (k < n)%nat ->
  eff nl n x (if t then 1 else 0)%nat l k = v t l k.
Proof.
  exists (fun i => v ((i / (nl * n)) =? 1)%nat ((i mod (nl * n)) / n)%nat (i mod n)%nat).
  intros t l k Hl Hk. unfold eff.
  assert (Hi : (l * n + k < nl * n)%nat) by (now apply cell_index).
  assert (Hm : (nl * n <> 0)%nat) by lia. assert (Hn : (n <> 0)%nat) by lia.
  replace ((if t then 1 else 0) * nl * n + l * n + k)%nat with ((l * n + k) + (if t then 1 else 0) * (nl * n))%nat by lia.
  rewrite Nat.div_add, Nat.mod_add, (Nat.div_small _ _ Hi), (Nat.mod_small _ _ Hi) by exact Hm.
  replace (((l * n + k) + (if t then 1 else 0) * (nl * n)) mod n)%nat with k.
  2:{ replace (l * n + k + (if t then 1 else 0) * (nl * n))%nat with (k + (l + (if t then 1 else 0) * nl) * n)%nat by lia.
      rewrite Nat.mod_add by exact Hn. now rewrite Nat.mod_small. }
  replace ((l * n + k) / n)%nat with l.
  2:{ rewrite Nat.add_comm, Nat.div_add by exact Hn. now rewrite Nat.div_small. }
  destruct t; reflexivity.
Qed.

Section Var.
Variables (nl nk : nat) (cats ctss : list gcol) (data : list obs) (s : gset).
Hypothesis nl_pos : (0 < nl)%nat.
Hypothesis nk_pos : (0 < nk)%nat.
Hypothesis D : ctl_data nk cats ctss data s.
Hypothesis lb : 0 < p_lb s.
Hypothesis no_s : p_s s = None.
Hypothesis no_s_all : p_s_all s = None.
Variable q : obs -> nat -> R.
Hypothesis q_pos : forall o l, In o data -> (l < nl)%nat -> 0 < q o l.
Notation blocks := (blocks cats ctss).
Notation total := (total nl data).

Lemma V_ok_firm v : V_ok nl nk cats ctss s Firm v <->
  forall t l n, (l < nl)%nat -> (n < nk)%nat -> p_lb s <= v t l n.
Proof.
  split.
  - intros (x & Hx & Ha & _) t l n Hl Hn. rewrite <- (Hx t l n Hl Hn). apply Ha; auto. destruct t; lia.
  - intros H. destruct (pack nl nk v) as [x Hx]. exists x. split; [exact Hx|]. split.
    + intros t l k Ht Hl Hk. change (k < nk)%nat in Hk. change (p_lb s <= eff nl nk x t l k).
      destruct t as [|[|t]]; [| |lia].
      * rewrite (Hx false l k Hl Hk). now apply H.
      * rewrite (Hx true l k Hl Hk). now apply H.
    + split; [|discriminate]. cbn. rewrite no_s, no_s_all. intros o d Ho. destruct Ho.
Qed.

(* The loss of the firm types' variances, cell by cell. *)
Variable p : par.
Hypothesis Hp : sd_pos nl nk cats ctss s p.
Notation w := (weight Firm q p).
Notation r := (fun t l o => resid_sq t p l o).
Definition den (t : bool) l k : R := cell (gp t) data (w t l) k.
Definition num (t : bool) l k : R := cell (gp t) data (fun o => w t l o * resid_sq t p l o) k.

Lemma w_pos t l o : In o data -> (l < nl)%nat -> 0 < w t l o.
Proof.
  intros Ho Hl. unfold weight.
  assert (Hb : In Firm blocks) by (now left).
  pose proof (Hp Firm t l (key Firm t o) Hb Hl (key_lt nl nk cats ctss data s nl_pos nk_pos D Firm t o Hb Ho)).
  apply Rmult_lt_0_compat.
  - apply Rmult_lt_0_compat; [now apply (wp_pos nk cats ctss data s D)|now apply q_pos].
  - apply Rinv_0_lt_compat. now apply pow_lt.
Qed.
Lemma den_pos t l k : (l < nl)%nat -> (k < nk)%nat -> 0 < den t l k.
Proof.
  intros Hl Hk.
  destruct (key_seen nl nk cats ctss data s nl_pos nk_pos D Firm t k (or_introl eq_refl) Hk) as (o & Ho & Eo).
  unfold den.
  rewrite (cell_ext (gp t) data (w t l) (fun o => w t l o) k) by reflexivity.
  apply cell_pos; [intros; now apply w_pos|]. exists o. split; assumption.
Qed.
Definition half (v : vals) (t : bool) : R :=
  sumn nl (fun l => sumn nk (fun k => den t l k * v t l k ^ 2 - 2 * v t l k * num t l k)).
Definition base (t : bool) : R :=
  sumn nl (fun l => sumn nk (fun k => cell (gp t) data (fun o => w t l o * resid_sq t p l o ^ 2) k)).
Lemma gp_lt t o : In o data -> (gp t o < nk)%nat.
Proof. intros Ho. exact (key_lt nl nk cats ctss data s nl_pos nk_pos D Firm t o (or_introl eq_refl) Ho). Qed.
Lemma half_rows v t : rsum (map (fun o => sumn nl (fun l =>
    w t l o * (resid_sq t p l o - V_reg data Firm q p t l o * v t l (gp t o)) ^ 2)) data) = half v t + base t.
Proof.
  transitivity (rsum (map (fun o => sumn nl (fun l => 
    (fun l k o => w t l o * (resid_sq t p l o - v t l k) ^ 2) l (gp t o) o)) data)).
  { apply rsum_map_ext. intros o Ho. apply sumn_ext. intros l Hl.
    rewrite (V_reg_one nl nk cats ctss data s nl_pos nk_pos D q
      (fun o l Ho Hl => Rlt_le _ _ (q_pos o l Ho Hl)) Firm p t l o Hp (or_introl eq_refl) Hl) by discriminate.
    now rewrite Rmult_1_l. }
  rewrite (rows_to_cells nl nk (gp t) data (fun l k o => w t l o * (resid_sq t p l o - v t l k) ^ 2) (gp_lt t)). unfold half, base. rewrite <- sumn_plus. apply sumn_ext.
  intros l Hl. rewrite <- sumn_plus. apply sumn_ext. intros k Hk. unfold den, num.
  rewrite (cell_ext _ _ _ (fun o => (v t l k ^ 2 * w t l o + (- (2 * v t l k)) * (w t l o * resid_sq t p l o))
    + w t l o * resid_sq t p l o ^ 2)) by (intros; ring).
  rewrite !cell_plus, !cell_scal. ring.
Qed.
Lemma V_loss_firm v : V_loss nl data Firm q p v = half v false + half v true + (base false + base true).
Proof.
  unfold V_loss, BLMCtlSpec.total.
  transitivity (rsum (map (fun o => sumn nl (fun l =>
     w false l o * (resid_sq false p l o - V_reg data Firm q p false l o * v false l (gp false o)) ^ 2)
   + sumn nl (fun l => w true l o * (resid_sq true p l o - V_reg data Firm q p true l o * v true l (gp true o)) ^ 2)) data)).
  { apply rsum_map_ext. intros o _. apply sumn_plus. }
  rewrite rsum_map_plus, !half_rows. ring.
Qed.

Definition vopt : vals := fun t l k => Rmax (p_lb s) (num t l k / den t l k).
Lemma cell_gain d n b v : 0 < d -> b <= v ->
  d * Rmax b (n / d) ^ 2 - 2 * Rmax b (n / d) * n + d * (v - Rmax b (n / d)) ^ 2 <= d * v ^ 2 - 2 * v * n.
Proof.
  intros Hd Hv. set (m := Rmax b (n / d)).
  assert (H : 0 <= (d * m - n) * (v - m)).
  { unfold m, Rmax. destruct (Rle_dec b (n / d)) as [Hle|Hle].
    - replace (d * (n / d) - n) with 0 by (field; lra). lra.
    - apply Rmult_le_pos; [|lra]. apply Rnot_le_lt in Hle. apply (Rmult_lt_compat_l d) in Hle; [|exact Hd].
      replace (d * (n / d)) with n in Hle by (field; lra). lra. }
  nra.
Qed.
Definition gap (v : vals) (t : bool) : R := sumn nl (fun l => sumn nk (fun k => den t l k * (v t l k - vopt t l k) ^ 2)).
Lemma half_gain v t : (forall l n, (l < nl)%nat -> (n < nk)%nat -> p_lb s <= v t l n) ->
  half vopt t + gap v t <= half v t.
Proof.
  intros H. unfold half, gap. rewrite <- sumn_plus. apply sumn_le. intros l Hl. rewrite <- sumn_plus. apply sumn_le.
  intros k Hk. apply cell_gain; [now apply den_pos|now apply H].
Qed.
Lemma gap_nonneg v t : 0 <= gap v t.
Proof.
  unfold gap. apply sumn_nonneg. intros l Hl. apply sumn_nonneg. intros k Hk.
  apply Rmult_le_pos; [left; now apply den_pos|apply pow2_ge_0].
Qed.
Lemma sumn_null n f : (forall i, (i < n)%nat -> 0 <= f i) -> sumn n f <= 0 -> forall i, (i < n)%nat -> f i = 0.
Proof.
  intros H. induction n as [|n IH]; intros Hs i Hi; [lia|]. rewrite sumn_S in Hs.
  assert (0 <= sumn n f) by (apply sumn_nonneg; intros; apply H; lia).
  assert (0 <= f n) by (apply H; lia).
  destruct (Nat.eq_dec i n) as [->|]; [lra|]. apply IH; [intros; apply H; lia|lra|lia].
Qed.
Lemma vopt_best : best (V_ok nl nk cats ctss s Firm) (V_loss nl data Firm q p) vopt.
Proof.
  split.
  - apply V_ok_firm. intros. apply Rmax_l.
  - intros v Hv. rewrite V_ok_firm in Hv. rewrite !V_loss_firm.
    pose proof (half_gain v false (Hv false)). pose proof (half_gain v true (Hv true)).
    pose proof (gap_nonneg v false). pose proof (gap_nonneg v true). lra.
Qed.
Lemma best_vopt v : best (V_ok nl nk cats ctss s Firm) (V_loss nl data Firm q p) v ->
  forall t l k, (l < nl)%nat -> (k < nk)%nat -> v t l k = vopt t l k.
Proof.
  intros [Hv Hb] t l k Hl Hk. rewrite V_ok_firm in Hv. specialize (Hb vopt (proj1 vopt_best)). rewrite !V_loss_firm in Hb.
  pose proof (half_gain v false (Hv false)). pose proof (half_gain v true (Hv true)).
  pose proof (gap_nonneg v false). pose proof (gap_nonneg v true).
  assert (G : gap v t <= 0) by (destruct t; lra). unfold gap in G.
  pose proof (sumn_null nl (fun l => sumn nk (fun k => den t l k * (v t l k - vopt t l k) ^ 2))
    ltac:(intros i Hi; apply sumn_nonneg; intros j Hj;
    apply Rmult_le_pos; [left; now apply den_pos|apply pow2_ge_0]) G l Hl) as G1. cbn beta in G1.
  pose proof (sumn_null nk (fun k => den t l k * (v t l k - vopt t l k) ^ 2) ltac:(intros j Hj;
    apply Rmult_le_pos; [left; now apply den_pos|apply pow2_ge_0]) (Req_le _ _ G1) k Hk) as G2. cbn beta in G2.
  pose proof (den_pos t l k Hl Hk). apply Rmult_integral in G2 as [G2|G2]; [lra|].
  assert (v t l k - vopt t l k = 0) by (apply Rsqr_0_uniq; unfold Rsqr; lra). lra.
Qed.

(* The fitted variance of a firm type alone covers the squared residuals. *)
Lemma firm_covers p' : V_done nl nk cats ctss data s q p p' Firm ->
  forall t l k, (l < nl)%nat -> (k < nk)%nat ->
    cell (gp t) data (fun o => wp t o * q o l * resid_sq t p l o) k
    <= cell (gp t) data (fun o => wp t o * q o l * Sp t p' l k ^ 2) k.
Proof.
  intros H t l k Hl Hk. destruct H as [(v & Hv & E)|[No _]]; [|destruct (No _ vopt_best)].
  assert (E1 : Sp t p' l k ^ 2 = vopt t l k).
  { rewrite <- (best_vopt v Hv t l k Hl Hk). specialize (E t l k Hl Hk). cbn [sd] in E. rewrite E.
    replace (sqrt (v t l k) ^ 2) with (sqrt (v t l k) * sqrt (v t l k)) by ring. apply sqrt_sqrt.
    destruct Hv as [Hv _]. rewrite V_ok_firm in Hv. specialize (Hv t l k Hl Hk). lra. }
  rewrite E1. pose proof (Hp Firm t l k (or_introl eq_refl) Hl Hk) as Hs. cbn [sd] in Hs.
  assert (Hs2 : 0 < Sp t p l k ^ 2) by (now apply pow_lt).
  rewrite (cell_ext _ _ _ (fun o => Sp t p l k ^ 2 * (w t l o * resid_sq t p l o))).
  2:{ intros o Ho Eo. unfold weight. cbn [sd key]. rewrite Eo. field. lra. }
  rewrite (cell_ext _ _ (fun o => wp t o * q o l * vopt t l k) (fun o => Sp t p l k ^ 2 * (vopt t l k * w t l o))).
  2:{ intros o Ho Eo. unfold weight. cbn [sd key]. rewrite Eo. field. lra. }
  rewrite !cell_scal. apply Rmult_le_compat_l; [lra|]. fold (num t l k) (den t l k).
  pose proof (den_pos t l k Hl Hk). unfold vopt. pose proof (Rmax_r (p_lb s) (num t l k / den t l k)) as M.
  apply (Rmult_le_compat_r (den t l k)) in M; [|lra].
  replace (num t l k / den t l k * den t l k) with (num t l k) in M by (field; lra). exact M.
Qed.
End Var.

Lemma cell_filter {A} (g : A -> nat) (data : list A) F k :
  cell g data F k = rsum (map F (filter (fun o => g o =? k)%nat data)).
Proof.
  unfold cell. induction data as [|o data IH]; [reflexivity|]. cbn [map filter rsum].
  destruct (g o =? k)%nat; cbn [map rsum]; rewrite IH; ring.
Qed.

Lemma relabelling_comp n f g : relabelling n f -> relabelling n g -> relabelling n (fun l => f (g l)).
Proof.
  unfold relabelling. intros Hf Hg. rewrite <- (map_map g f). eapply Permutation_trans; [|exact Hf].
  now apply Permutation_map.
Qed.

Section Over.
Variables (nl nk : nat) (cats ctss : list gcol) (data : list obs) (c : cset).
Hypothesis nl_pos : (0 < nl)%nat.
Hypothesis nk_pos : (0 < nk)%nat.
Notation s := (cs_gen c).
Hypothesis D : ctl_data nk cats ctss data s.
Hypothesis lb : 0 < p_lb s.
Hypothesis no_s : p_s s = None.
Hypothesis no_s_all : p_s_all s = None.
Hypothesis has_cols : cats <> [] \/ ctss <> [].
Notation good := (ctl_par nl nk cats ctss s).

Lemma var_more p t l o : good p -> In o data -> (l < nl)%nat -> Sp t p l (gp t o) ^ 2 < var t p l o.
Proof.
  intros (K & Hs & _) Ho Hl.
  assert (V : var t p l o = Sp t p l (gp t o) ^ 2
    + rsum (map2 (fun a n => cat_at l n a ^ 2) (Scatp t p) (cp t o)) + rsum (map (fun a => cts_sd l a ^ 2) (Sctsp t p)))
    by (destruct t; reflexivity).
  rewrite V. destruct (K t) as (_ & K2 & _ & K4).
  pose proof (sumsq2_nonneg (fun a n => cat_at l n a) (Scatp t p) (cp t o)) as N1.
  pose proof (sumsq_nonneg (fun a => cts_sd l a) (Sctsp t p)) as N2.
  pose proof (F2_length _ _ _ K2) as L2. pose proof (F2_length _ _ _ K4) as L4.
  pose proof (c_len nk cats ctss data s D t o Ho) as Lc.
  destruct has_cols as [Hc|Hc].
  - assert (Hb : In (Cat 0) (blocks cats ctss)).
    { apply (in_cat nl nk cats ctss nl_pos nk_pos). destruct cats; [congruence|cbn; lia]. }
    pose proof (Hs (Cat 0) t l _ Hb Hl (key_lt nl nk cats ctss data s nl_pos nk_pos D (Cat 0) t o Hb Ho)) as P.
    cbn [sd key] in P. destruct (Scatp t p) as [|a ra]; [destruct cats; cbn in L2; [congruence|lia]|].
    destruct (cp t o) as [|n rn]; [destruct cats; cbn in Lc; [congruence|lia]|]. cbn [nth] in P.
    cbn [map2 rsum map combine fst snd] in N1 |- *. pose proof (sumsq2_nonneg (fun a n => cat_at l n a) ra rn) as N3.
    assert (0 < cat_at l n a ^ 2) by (now apply pow_lt). lra.
  - assert (Hb : In (Cts 0) (blocks cats ctss)).
    { apply (in_cts nl nk cats ctss nl_pos nk_pos). destruct ctss; [congruence|cbn; lia]. }
    pose proof (Hs (Cts 0) t l _ Hb Hl (key_lt nl nk cats ctss data s nl_pos nk_pos D (Cts 0) t o Hb Ho)) as P.
    cbn [sd key] in P. destruct (Sctsp t p) as [|a ra]; [destruct ctss; cbn in L4; [congruence|lia]|]. cbn [nth] in P.
    cbn [map rsum] in N2 |- *. pose proof (sumsq_nonneg (fun a => cts_sd l a) ra) as N3.
    assert (0 < cts_sd l a ^ 2) by (now apply pow_lt). lra.
Qed.

Lemma A_turn_sd k0 q bs p p' : in_turn (A_done nl nk cats ctss data s k0 q) bs p p' -> forall b, sd b p' = sd b p.
Proof.
  revert p. induction bs as [|b0 bs IH]; intros p H b; cbn in H; [now subst|].
  destruct H as (p1 & H1 & H2). rewrite (IH p1 H2 b). destruct H1 as [(a & _ & ->)|[_ ->]]; [apply sd_field|reflexivity].
Qed.

(* One iteration. *)
Lemma iteration_over c' k0 p p' : cs_s c' = true -> good p -> good p' -> iteration nl nk cats ctss data s c' k0 p p' ->
  forall t l k, (l < nl)%nat -> (k < nk)%nat ->
    weighted nl nk data p t k l (resid_sq t p' l) < weighted nl nk data p t k l (var t p' l).
Proof.
  intros Es G G' (p1 & p2 & H1 & H2 & H3) t l k Hl Hk. rewrite Es in H3. destruct H3 as (SB & _ & V).
  assert (S1 : forall b, sd b p1 = sd b p).
  { intros b. destruct (cs_pk1 c'); [destruct H1 as (pk & -> & _)|subst p1]; [|reflexivity].
    apply functional_extensionality. intros t0. destruct b, t0; reflexivity. }
  assert (S2 : forall b, sd b p2 = sd b p).
  { intros b. rewrite <- S1. destruct (cs_a c'); [now apply (A_turn_sd _ _ _ _ _ H2)|now subst p2]. }
  assert (Hp2 : sd_pos nl nk cats ctss s p2).
  { intros b t0 l0 n Hb Hl0 Hn. rewrite S2. now apply G. }
  assert (Q : forall o l, In o data -> (l < nl)%nat -> 0 < bayes nl nk p o l).
  { intros. now apply (bayes_pos nl nk cats ctss data c nl_pos D). }
  pose proof (firm_covers nl nk cats ctss data s nl_pos nk_pos D lb no_s no_s_all (bayes nl nk p) Q p2 Hp2 p'
    (V Firm (or_introl eq_refl)) t l k Hl Hk) as F.
  unfold weighted. rewrite <- !cell_filter.
  rewrite (cell_ext _ _ (fun o => wp t o * bayes nl nk p o l * resid_sq t p' l o)
     (fun o => wp t o * bayes nl nk p o l * resid_sq t p2 l o)).
  2:{ intros o Ho _. assert (M : mu t p' l o = mu t p2 l o); [|unfold resid_sq; now rewrite M]. rewrite !mu_unfold.
      destruct SB as (a1 & a2 & a3 & a4 & a5 & a6 & _). destruct t; cbn [Ap Acatp Actsp]; congruence. }
  eapply Rle_lt_trans; [exact F|].
  destruct (key_seen nl nk cats ctss data s nl_pos nk_pos D Firm t k (or_introl eq_refl) Hk) as (o0 & Ho0 & Eo0).
  assert (P : 0 < cell (gp t) data (fun o => wp t o * bayes nl nk p o l * (var t p' l o - Sp t p' l (gp t o) ^ 2)) k).
  { apply cell_pos; [|exists o0; split; assumption]. intros o Ho.
    pose proof (var_more p' t l o G' Ho Hl). pose proof (Q o l Ho Hl). pose proof (wp_pos nk cats ctss data s D t o Ho).
    apply Rmult_lt_0_compat; [now apply Rmult_lt_0_compat|lra]. }
  rewrite (cell_ext _ _ (fun o => wp t o * bayes nl nk p o l * var t p' l o)
    (fun o => wp t o * bayes nl nk p o l * Sp t p' l k ^ 2 + wp t o * bayes nl nk p o l * (var t p' l o - Sp t p' l (gp t o) ^ 2))).
  2:{ intros o Ho <-. ring. }
  rewrite cell_plus. lra.
Qed.

Lemma bayes_relabelled p p0 sg o l : relabelling nl sg -> relabelled nl nk sg (fun k => k) p p0 -> In o data ->
  (l < nl)%nat -> bayes nl nk p0 o l = bayes nl nk p o (sg l).
Proof.
  intros R1 Hr Ho Hl. destruct (row_ok nk cats ctss data s D o Ho) as ([d1 d2] & _).
  assert (Hsr : same_row nk (fun k => k) o o) by (unfold same_row; repeat split; auto).
  unfold bayes. rewrite (mixture_relabelled nl nk sg _ p p0 o o R1 Hr Hsr).
  destruct (density_relabelled nl nk sg _ p p0 o o l Hr Hsr Hl) as [-> _].
  now rewrite (r_pk1 _ _ _ _ _ _ Hr) by assumption.
Qed.

Lemma one_iteration s' c' k p qs pn : cs_iters c' = 1%nat -> run nl nk cats ctss data s' c' k p qs pn ->
  exists sg p0 k0, relabelling nl sg /\ relabelled nl nk sg (fun k => k) p p0 /\
    iteration nl nk cats ctss data s' c' k0 p0 pn.
Proof.
  intros E1 (sg & p0 & stop & R1 & Hr & P & L & Ls & St). exists sg, p0. rewrite E1 in L, Ls.
  assert (stop = false) as ->.
  { destruct stop; [|reflexivity]. exfalso. destruct (proj2 (St qs [] ltac:(now rewrite app_nil_r)) (conj eq_refl eq_refl))
      as ((l0 & a & b & E & _) & _). apply (f_equal (@length R)) in E.
    unfold recorded_liks, enumerate in E. rewrite map_length, combine_length, !map_length, app_length in E.
    cbn [length] in E. lia. }
  specialize (Ls eq_refl). destruct qs as [|[q k0] [|? ?]]; cbn in Ls; try lia.
  destruct P as (-> & _ & [(X & _)|(q' & It & P)]); [discriminate|]. destruct P as [_ ->]. now exists k0.
Qed.
End Over.

Lemma weighted_relabelled nl nk cats ctss data c p p0 sg t k l f : ctl_data nk cats ctss data (cs_gen c) ->
  relabelling nl sg -> relabelled nl nk sg (fun k => k) p p0 -> (l < nl)%nat ->
  weighted nl nk data p0 t k l f = weighted nl nk data p t k (sg l) f.
Proof.
  intros D R1 Hr Hl. unfold weighted. apply rsum_map_ext. intros o Ho. apply filter_In in Ho as [Ho _].
  now rewrite (bayes_relabelled nl nk cats ctss data c D p p0 sg o l R1 Hr Ho Hl).
Qed.
Lemma weighted_ext nl nk data p t k l f g : (forall o, In o data -> f o = g o) ->
  weighted nl nk data p t k l f = weighted nl nk data p t k l g.
Proof.
  intros H. unfold weighted. apply rsum_map_ext. intros o Ho. apply filter_In in Ho as [Ho _]. now rewrite H.
Qed.
Lemma bayes_but nl nk p p1 o l : but_pk0 p p1 -> bayes nl nk p1 o l = bayes nl nk p o l.
Proof. intros [f ->]. reflexivity. Qed.

Lemma good_but nl nk cats ctss s p p1 : but_pk0 p p1 -> ctl_par nl nk cats ctss s p -> ctl_par nl nk cats ctss s p1.
Proof.
  intros [f ->] (K & Hs & Hp). split; [intros t; destruct t; [exact (K true)|exact (K false)]|]. split; [|exact Hp].
  intros b t l n Hb Hl Hn. specialize (Hs b t l n Hb Hl Hn). destruct b, t; exact Hs.
Qed.

Section Over2.
Variable argsort : list R -> list nat.
Variable solver : list R -> list R -> problem -> qpres.
Variables (nl nk : nat) (cats ctss : list gcol) (data : list obs).
Hypothesis sorts : forall l, is_argsort l (argsort l).
Hypothesis exact : exact_qp solver.
Hypothesis complete : complete_qp solver.
Hypothesis nl_pos : (0 < nl)%nat.
Hypothesis nk_pos : (0 < nk)%nat.
Hypothesis cts_one : Forall (fun c => gc_n c = 1%nat) ctss.
Variable c : cset.
Notation s := (cs_gen c).
Hypothesis D : ctl_data nk cats ctss data s.
Hypothesis V : all_valid s nl nk (cats ++ ctss).
Hypothesis lb : 0 < p_lb s.
Hypothesis prior : cs_pk1 c = true -> 1 <= cs_prior c /\ all_pairs nk data.
Hypothesis no_s : p_s s = None.
Hypothesis no_s_all : p_s_all s = None.
Hypothesis has_cols : cats <> [] \/ ctss <> [].
Hypothesis s_on : cs_s c = true.
Hypothesis one : cs_iters c = 1%nat.

Lemma run_over s' c' k p qs pn : cs_gen c' = s' -> s' = s \/ s' = forced s -> cs_s c' = true -> cs_iters c' = 1%nat ->
  ctl_par nl nk cats ctss s p -> ctl_par nl nk cats ctss s pn ->
  run nl nk cats ctss data s' c' k p qs pn ->
  exists sg, relabelling nl sg /\ forall t l k, (l < nl)%nat -> (k < nk)%nat ->
    weighted nl nk data p t k (sg l) (resid_sq t pn l) < weighted nl nk data p t k (sg l) (var t pn l).
Proof.
  intros E Es Hs Hi G Gn R. destruct (one_iteration nl nk cats ctss data nl_pos nk_pos s' c' k p qs pn Hi R) as (sg & p0 & k0 & R1 & Hr & It).
  exists sg. split; [exact R1|]. intros t l k1 Hl Hk.
  pose proof (relabelled_good nl nk cats ctss c nl_pos nk_pos p p0 sg _ R1 (fun _ => eq_refl) Hr G) as G0.
  rewrite <- !(weighted_relabelled nl nk cats ctss data c p p0 sg t k1 l _ D R1 Hr Hl). subst s'.
  assert (D' : ctl_data nk cats ctss data (cs_gen c')) by (destruct Es as [-> | ->]; exact D).
  assert (Gn' : ctl_par nl nk cats ctss (cs_gen c') pn) by (destruct Es as [-> | ->]; exact Gn).
  assert (G0' : ctl_par nl nk cats ctss (cs_gen c') p0) by (destruct Es as [-> | ->]; exact G0).
  apply (iteration_over nl nk cats ctss data c' nl_pos nk_pos D') with (c' := c') (k0 := k0); try assumption.
  - destruct Es as [-> | ->]; exact lb.
  - destruct Es as [-> | ->]; exact no_s.
  - destruct Es as [-> | ->]; exact no_s_all.
Qed.

Lemma variance_over nnm p : ctl_par nl nk cats ctss s p ->
  exists p' lik liks sg, fit_movers_ctl argsort solver nl nk cats ctss data c nnm p = Ok (p', lik, liks) /\
    relabelling nl sg /\ forall t l k, (l < nl)%nat -> (k < nk)%nat ->
      weighted nl nk data p t k (sg l) (resid_sq t p' l) < weighted nl nk data p t k (sg l) (var t p' l).
Proof.
  intros G.
  destruct (movers_ok argsort solver nl nk cats ctss data sorts exact complete nl_pos nk_pos cts_one c D V lb
    (fun _ => s_on) prior nnm p G) as (p' & qs & pn & sg & E & Gn & Rg & [_ M] & H).
  assert (O : exists sg0, relabelling nl sg0 /\ forall t l k, (l < nl)%nat -> (k < nk)%nat ->
    weighted nl nk data p t k (sg0 l) (resid_sq t pn l) < weighted nl nk data p t k (sg0 l) (var t pn l)).
  { destruct H as [(_ & R & _)|(_ & p1 & k & runs & B & Hk & Er & Hj)].
    - apply (run_over s c 0 p qs pn); auto.
    - destruct (Hj k Hk) as [R _]. rewrite Er in R. cbn [fst snd] in R.
      assert (G1 : ctl_par nl nk cats ctss s p1) by (now apply (good_but nl nk cats ctss s p p1)).
      destruct (run_over (forced s) (cforced c) k p1 qs pn eq_refl (or_intror eq_refl) s_on one G1 Gn R) as (sg0 & R0 & H).
      exists sg0. split; [exact R0|]. intros t l k1 Hl Hk1. specialize (H t l k1 Hl Hk1).
      assert (W : forall t k l f, weighted nl nk data p1 t k l f = weighted nl nk data p t k l f).
      { intros. unfold weighted. apply rsum_map_ext. intros. now rewrite (bayes_but nl nk p p1). }
      rewrite !W in H. exact H. }
  destruct O as (sg0 & R0 & O).
  exists p', (last_lik (recorded_liks nl nk data c (map fst qs))), (recorded_liks nl nk data c (map fst qs)),
    (fun l => sg0 (sg l)).
  split; [exact E|]. split; [now apply relabelling_comp|]. intros t l k Hl Hk.
  pose proof (relabelling_lt nl sg l Rg Hl) as Hl'.
  rewrite (weighted_ext nl nk data p t k (sg0 (sg l)) (resid_sq t p' l) (resid_sq t pn (sg l))).
  2:{ intros o Ho. unfold resid_sq. now rewrite (proj1 (M t l o Hl Ho)). }
  rewrite (weighted_ext nl nk data p t k (sg0 (sg l)) (var t p' l) (var t pn (sg l))).
  2:{ intros o Ho. exact (proj2 (M t l o Hl Ho)). }
  now apply O.
Qed.
End Over2.
