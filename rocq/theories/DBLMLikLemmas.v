(* The E-step of the dynamic model. *)
From Verif Require Import Base BaseLemmas UtilModel UtilSpec UtilNumLemmas BLMModel BLMEMModel
  BLMSpec BLMSortLemmas BLMLikLemmas DBLMModel DBLMSpec DBLMSortLemmas.
Local Open Scope res_scope.
Local Open Scope R_scope.

Section Fill.
Variables (nl : nat) (data : list dobs).
Definition tab (f : dobs -> nat -> R) : list (list R) :=
  map (fun o => map (f o) (range nl)) data.

Lemma tab_ext f g :
  (forall o i, In o data -> (i < nl)%nat -> f o i = g o i) -> tab f = tab g.
Proof.
  intros H. apply map_ext_in. intros o Ho. apply map_ext_in. intros i Hi.
  apply in_seq in Hi. apply H; [exact Ho|lia].
Qed.

Lemma upd_map_range {A} (f : nat -> A) l v a n :
  upd l (fun _ => v) (map f (seq a n)) = map (fun i => if (i =? a + l)%nat then v else f i) (seq a n).
Proof.
  revert a l. induction n as [|n IH]; intros a l; [destruct l; reflexivity|].
  cbn [seq map]. destruct l as [|l]; cbn [upd].
  - rewrite Nat.add_0_r, Nat.eqb_refl. f_equal. apply map_ext_in. intros i Hi.
    apply in_seq in Hi. destruct (Nat.eqb_spec i a); [lia|reflexivity].
  - destruct (Nat.eqb_spec a (a + S l)); [lia|]. f_equal. rewrite IH.
    apply map_ext. intros i. replace (S a + l)%nat with (a + S l)%nat by lia. reflexivity.
Qed.

Lemma set_col_tab sel l v val f :
  (forall o, In o data -> sel o = true -> v o = Ok (val o)) ->
  set_col sel l v data (tab f)
  = Ok (tab (fun o i => if (sel o && (i =? l)%nat)%bool then val o else f o i)).
Proof.
  intros H. unfold set_col, tab.
  assert (E : forall d, incl d data ->
    traverse (fun oi => if sel (fst oi)
                        then x <- v (fst oi) ;; Ok (upd l (fun _ => x) (snd oi))
                        else Ok (snd oi)) (combine d (map (fun o => map (f o) (range nl)) d))
    = Ok (map (fun o => map (fun i => if (sel o && (i =? l)%nat)%bool then val o else f o i) (range nl)) d)).
  { induction d as [|o d IH]; intros Hd; [reflexivity|]. cbn [map combine traverse fst snd].
    rewrite IH by (intros x Hx; apply Hd; now right).
    destruct (sel o) eqn:Es; [|reflexivity].
    rewrite (H o) by (try exact Es; apply Hd; now left). cbn [bind].
    unfold range. rewrite upd_map_range. reflexivity. }
  apply E. intros x Hx; exact Hx.
Qed.

Lemma loop_fill {K} (ks : list K) body (P : K -> dobs -> nat -> bool) val f :
  (forall k g, In k ks ->
     body k (tab g) = Ok (tab (fun o i => if P k o i then val o i else g o i))) ->
  for_each ks body (tab f)
  = Ok (tab (fun o i => if existsb (fun k => P k o i) ks then val o i else f o i)).
Proof.
  revert f. induction ks as [|k ks IH]; intros f H; [reflexivity|].
  cbn [for_each existsb]. rewrite H by (now left). cbn [bind].
  rewrite IH by (intros; apply H; now right). f_equal. apply tab_ext. intros o i _ _.
  destruct (P k o i); cbn [orb]; [|reflexivity]. now destruct (existsb _ ks).
Qed.

Lemma existsb_range_eqb n i : (i < n)%nat -> existsb (fun k => (i =? k)%nat) (range n) = true.
Proof.
  intros H. apply existsb_exists. exists i. split; [apply in_seq; lia|apply Nat.eqb_refl].
Qed.

(* The loops of the code fill every row whose firm types are in range. *)
Lemma fill_movers nk (v : dobs -> nat -> nat -> nat -> res R) val :
  (forall o l, In o data -> (l < nl)%nat -> v o l (dg1 o) (dg4 o) = Ok (val o l)) ->
  (forall o, In o data -> (dg1 o < nk)%nat /\ (dg4 o < nk)%nat) ->
  for_each (range nk) (fun g1 =>
    for_each (range nk) (fun g2 =>
      for_each (range nl) (fun l =>
        set_col (fun o => (dg1 o =? g1) && (dg4 o =? g2))%nat l
          (fun o => v o l g1 g2) data))) (zeros nl data)
  = Ok (tab val).
Proof.
  intros Hv Hg. change (zeros nl data) with (tab (fun _ _ => 0)).
  rewrite (loop_fill _ _ (fun a o i => existsb (fun b => existsb (fun l =>
     ((dg1 o =? a) && (dg4 o =? b) && (i =? l))%nat) (range nl)) (range nk)) val).
  - f_equal. apply tab_ext. intros o i Ho Hi. destruct (Hg o Ho) as [H1 H4].
    rewrite (proj2 (existsb_exists _ _)); [reflexivity|].
    exists (dg1 o). split; [apply in_seq; lia|]. apply existsb_exists.
    exists (dg4 o). split; [apply in_seq; lia|]. apply existsb_exists.
    exists i. split; [apply in_seq; lia|]. now rewrite !Nat.eqb_refl.
  - intros a g Ha. apply loop_fill. intros b g' Hb. apply loop_fill. intros l g'' Hl.
    apply in_seq in Hl.
    rewrite (set_col_tab _ _ _ (fun o => val o l)).
    + f_equal. apply tab_ext. intros o i _ _.
      destruct (Nat.eqb_spec i l); [subst; reflexivity|]. now rewrite !Bool.andb_false_r.
    + intros o Ho Hs. apply andb_prop in Hs as [H1 H2].
      apply Nat.eqb_eq in H1, H2. subst. apply Hv; [exact Ho|lia].
Qed.

Lemma fill_stayers nk (v : dobs -> nat -> nat -> res R) val :
  (forall o l, In o data -> (l < nl)%nat -> v o l (dg1 o) = Ok (val o l)) ->
  (forall o, In o data -> (dg1 o < nk)%nat) ->
  for_each (range nk) (fun g1 =>
    for_each (range nl) (fun l =>
      set_col (fun o => dg1 o =? g1)%nat l (fun o => v o l g1) data)) (zeros nl data)
  = Ok (tab val).
Proof.
  intros Hv Hg. change (zeros nl data) with (tab (fun _ _ => 0)).
  rewrite (loop_fill _ _ (fun a o i => existsb (fun l =>
     ((dg1 o =? a) && (i =? l))%nat) (range nl)) val).
  - f_equal. apply tab_ext. intros o i Ho Hi. pose proof (Hg o Ho) as H1.
    rewrite (proj2 (existsb_exists _ _)); [reflexivity|].
    exists (dg1 o). split; [apply in_seq; lia|]. apply existsb_exists.
    exists i. split; [apply in_seq; lia|]. now rewrite !Nat.eqb_refl.
  - intros a g Ha. apply loop_fill. intros l g'' Hl. apply in_seq in Hl.
    rewrite (set_col_tab _ _ _ (fun o => val o l)).
    + f_equal. apply tab_ext. intros o i _ _.
      destruct (Nat.eqb_spec i l); [subst; reflexivity|]. now rewrite !Bool.andb_false_r.
    + intros o Ho Hs. apply Nat.eqb_eq in Hs. subst. apply Hv; [exact Ho|lia].
Qed.

Lemma map2_tab f g :
  map2 (map2 Rplus) (tab f) (tab g) = tab (fun o i => f o i + g o i).
Proof.
  unfold tab. induction data as [|o d IH]; [reflexivity|]. cbn [map map2]. f_equal; [|exact IH].
  generalize (range nl). induction l as [|x l IHl]; [reflexivity|]. cbn [map map2]. now f_equal.
Qed.
End Fill.

(* ---- likelihoods and posteriors from the entries ---- *)
Section Mixture.
Variables (nl : nat) (data : list dobs) (prior dens lp : dobs -> nat -> R).
Hypothesis nl_pos : (0 < nl)%nat.
Hypothesis entry : forall o l, In o data -> (l < nl)%nat -> exp (lp o l) = prior o l * dens o l.

Lemma exp_row o : In o data ->
  rsum (map exp (map (lp o) (range nl))) = mixture nl (prior o) (dens o).
Proof.
  intros Ho. rewrite map_map. unfold mixture, sumn. apply rsum_map_ext. intros l Hl.
  apply in_seq in Hl. apply entry; [exact Ho|lia].
Qed.

Lemma mean_lse_tab :
  mean_lse (tab nl data lp)
  = Ok (rsum (map (fun o => ln (mixture nl (prior o) (dens o))) data) / INR (length data)).
Proof.
  unfold mean_lse, tab.
  rewrite (traverse_ok _ (fun row => ln (rsum (map exp row)))).
  2:{ intros row Hr. apply in_map_iff in Hr as [o [<- _]].
      apply logsumexp_spec. now apply map_range_nonempty. }
  cbn [bind]. rewrite !map_length. do 2 f_equal. rewrite map_map.
  apply rsum_map_ext. intros o Ho. now rewrite exp_row.
Qed.

Lemma posteriors_tab :
  posteriors (tab nl data lp)
  = Ok (tab nl data (fun o l => prior o l * dens o l / mixture nl (prior o) (dens o))).
Proof.
  unfold posteriors, tab.
  rewrite (traverse_ok _ (fun row => map (fun y => exp y / rsum (map exp row)) row)).
  2:{ intros row Hr. apply in_map_iff in Hr as [o [<- _]].
      apply posterior_list. now apply map_range_nonempty. }
  f_equal. rewrite map_map. apply map_ext_in. intros o Ho. rewrite exp_row by exact Ho.
  rewrite map_map. apply map_ext_in. intros l Hl. apply in_seq in Hl.
  rewrite entry; [reflexivity|exact Ho|lia].
Qed.
End Mixture.

(* ---- one row ---- *)
Lemma lognormpdf_shift x mu c v :
  0 < v -> lognormpdf (x - c) mu None (Some v) = Ok (ln (normal_density x (mu + c) (sqrt v))).
Proof.
  intros Hv. rewrite lognormpdf_variance by exact Hv. do 2 f_equal. unfold normal_density.
  do 2 f_equal. replace (x - c - mu) with (x - (mu + c)) by ring. reflexivity.
Qed.
Lemma normal_density_pos x mu s : 0 < s -> 0 < normal_density x mu s.
Proof.
  intros Hs. unfold normal_density.
  apply Rmult_lt_0_compat; [|apply exp_pos]. apply Rinv_0_lt_compat.
  apply Rmult_lt_0_compat; [exact Hs|]. apply sqrt_lt_R0. pose proof PI_RGT_0. lra.
Qed.

Section Rows.
Variables (nl nk : nat) (p : dpar).

Definition mover_entry (o : dobs) (l : nat) : R :=
  ln (dpk1 p (dg1 o + nk * dg4 o)%nat l)
  + ln (normal_density (dy1 o) (mean1 p (dA p) o l) (sqrt (dvar1 p (sq (dS p)) o l)))
  + ln (normal_density (dy2 o) (mean2 (dA p) (dAb p) o l)
          (sqrt (dvar2 (sq (dS p)) (sqb (dSb p)) o l)))
  + ln (normal_density (dy3 o) (mean3 p (dA p) (dAb p) o l)
          (sqrt (dvar3 p (sq (dS p)) (sqb (dSb p)) o l)))
  + ln (normal_density (dy4 o) (mean4 p (dA p) o l) (sqrt (dvar4 p (sq (dS p)) o l))).

Lemma dmover_vars_pos o l : dmover_ok nl nk p o -> (l < nl)%nat ->
  0 < dvar1 p (sq (dS p)) o l /\ 0 < dvar2 (sq (dS p)) (sqb (dSb p)) o l /\
  0 < dvar3 p (sq (dS p)) (sqb (dSb p)) o l /\ 0 < dvar4 p (sq (dS p)) o l.
Proof.
  intros (_ & _ & H) Hl. destruct (H l Hl) as (_ & H1 & H2 & H3 & H4).
  assert (Q : forall x, 0 <= x ^ 2) by (intros; nra).
  assert (V : forall x, 0 < x -> 0 < x ^ 2) by (intros; nra).
  assert (V2 : 0 < dvar2 (sq (dS p)) (sqb (dSb p)) o l).
  { unfold dvar2, sq, sqb. pose proof (V _ H2). pose proof (Q (dSb p T2mb (dg4 o))). lra. }
  split; [|split; [exact V2|split]].
  - unfold dvar1, sq. pose proof (V _ H1). pose proof (V _ H2). pose proof (Q (R12 p)). nra.
  - unfold dvar3. assert (0 < sq (dS p) T3ma l (dg4 o)) by (apply V, H3).
    assert (0 <= sqb (dSb p) T3mb (dg1 o)) by apply Q. pose proof (Q (R32m p)). nra.
  - unfold dvar4, sq. pose proof (V _ H3). pose proof (V _ H4). pose proof (Q (R43 p)). nra.
Qed.

Lemma mover_lp_spec o l : dmover_ok nl nk p o -> (l < nl)%nat ->
  mover_lp nk p o l (dg1 o) (dg4 o) = Ok (mover_entry o l).
Proof.
  intros H Hl. destruct (dmover_vars_pos o l H Hl) as (V1 & V2 & V3 & V4).
  unfold mover_lp.
  assert (E1 : dS p T12 l (dg1 o) ^ 2 + (R12 p * dS p T2ma l (dg1 o)) ^ 2 = dvar1 p (sq (dS p)) o l)
    by (unfold dvar1, sq; ring).
  assert (E2 : dS p T2ma l (dg1 o) ^ 2 + dSb p T2mb (dg4 o) ^ 2 = dvar2 (sq (dS p)) (sqb (dSb p)) o l)
    by reflexivity.
  assert (E4 : dS p T43 l (dg4 o) ^ 2 + (R43 p * dS p T3ma l (dg4 o)) ^ 2 = dvar4 p (sq (dS p)) o l)
    by (unfold dvar4, sq; ring).
  rewrite E1, E2, E4.
  change (dS p T3ma l (dg4 o) ^ 2 + dSb p T3mb (dg1 o) ^ 2
          + R32m p ^ 2 * dvar2 (sq (dS p)) (sqb (dSb p)) o l) with (dvar3 p (sq (dS p)) (sqb (dSb p)) o l).
  rewrite !lognormpdf_shift by assumption. cbn [bind].
  rewrite lognormpdf_variance by assumption. cbn [bind].
  unfold mover_entry, mean1, mean3, mean4, mean2.
  do 3 f_equal. f_equal. f_equal. f_equal. ring.
Qed.

Lemma dmover_density_pos o l : dmover_ok nl nk p o -> (l < nl)%nat -> 0 < dmover_density p o l.
Proof.
  intros H Hl. destruct (dmover_vars_pos o l H Hl) as (V1 & V2 & V3 & V4).
  unfold dmover_density.
  repeat (apply Rmult_lt_0_compat; [|apply normal_density_pos; now apply sqrt_lt_R0]).
  apply normal_density_pos; now apply sqrt_lt_R0.
Qed.

Lemma exp_mover_entry o l : dmover_ok nl nk p o -> (l < nl)%nat ->
  exp (mover_entry o l) = dpk1 p (dg1 o + nk * dg4 o)%nat l * dmover_density p o l.
Proof.
  intros H Hl. destruct (dmover_vars_pos o l H Hl) as (V1 & V2 & V3 & V4).
  destruct H as (_ & _ & H). destruct (H l Hl) as (Hp & _).
  unfold mover_entry, dmover_density. rewrite !exp_plus.
  rewrite !exp_ln by (first [exact Hp | apply normal_density_pos; now apply sqrt_lt_R0]). ring.
Qed.

Definition stayer_entry_s (o : dobs) (l : nat) : R :=
  ln (normal_density (dy1 o) (smean1 p o l) (sqrt (svar1 p o l)))
  + ln (normal_density (dy4 o) (smean4 p o l) (sqrt (svar4 p o l))).
Definition stayer_entry (o : dobs) (l : nat) : R :=
  ln (dpk0 p (dg1 o) l)
  + ln (normal_density (dy2 o) (dA p T2s l (dg1 o)) (dS p T2s l (dg1 o)))
  + ln (normal_density (dy3 o) (smean3 p (dA p) o l) (sqrt (svar3 p (sq (dS p)) o l))).

Lemma dstayer_vars_pos o l : dstayer_ok nl nk p o -> (l < nl)%nat ->
  0 < svar1 p o l /\ 0 < svar3 p (sq (dS p)) o l /\ 0 < svar4 p o l.
Proof.
  intros (_ & H) Hl. destruct (H l Hl) as (_ & H1 & H2 & H3 & H4).
  assert (Q : forall x, 0 <= x ^ 2) by (intros; nra).
  assert (V : forall x, 0 < x -> 0 < x ^ 2) by (intros; nra).
  unfold svar1, svar3, svar4, sq. repeat split.
  - pose proof (V _ H1). pose proof (Q (R12 p)). pose proof (Q (dS p T2ma l (dg1 o))). nra.
  - pose proof (V _ H3). pose proof (Q (R32s p)). pose proof (Q (dS p T2s l (dg1 o))). nra.
  - pose proof (V _ H4). pose proof (Q (R43 p)). pose proof (Q (dS p T3ma l (dg1 o))). nra.
Qed.

Lemma stayer_stable_spec o l : dstayer_ok nl nk p o -> (l < nl)%nat ->
  stayer_stable p o l (dg1 o) = Ok (stayer_entry_s o l).
Proof.
  intros H Hl. destruct (dstayer_vars_pos o l H Hl) as (V1 & V3 & V4).
  unfold stayer_stable.
  assert (E1 : dS p T12 l (dg1 o) ^ 2 + (R12 p * dS p T2ma l (dg1 o)) ^ 2 = svar1 p o l)
    by (unfold svar1; ring).
  assert (E4 : dS p T43 l (dg1 o) ^ 2 + (R43 p * dS p T3ma l (dg1 o)) ^ 2 = svar4 p o l)
    by (unfold svar4; ring).
  rewrite E1, E4, !lognormpdf_shift by assumption. reflexivity.
Qed.
Lemma stayer_lp_spec o l : dstayer_ok nl nk p o -> (l < nl)%nat ->
  stayer_lp p o l (dg1 o) = Ok (stayer_entry o l).
Proof.
  intros H Hl. destruct (dstayer_vars_pos o l H Hl) as (V1 & V3 & V4).
  destruct H as (_ & H). destruct (H l Hl) as (_ & _ & H2 & _).
  unfold stayer_lp.
  assert (E3 : dS p T3s l (dg1 o) ^ 2 + (R32s p * dS p T2s l (dg1 o)) ^ 2 = svar3 p (sq (dS p)) o l)
    by (unfold svar3, sq; ring).
  rewrite E3, lognormpdf_sd by assumption. cbn [bind].
  rewrite lognormpdf_shift by assumption. reflexivity.
Qed.
Lemma exp_stayer_entry o l : dstayer_ok nl nk p o -> (l < nl)%nat ->
  exp (stayer_entry o l + stayer_entry_s o l) = dpk0 p (dg1 o) l * dstayer_density p o l.
Proof.
  intros H Hl. destruct (dstayer_vars_pos o l H Hl) as (V1 & V3 & V4).
  destruct H as (_ & H). destruct (H l Hl) as (Hp & _ & H2 & _).
  unfold stayer_entry, stayer_entry_s, dstayer_density. rewrite !exp_plus.
  rewrite !exp_ln by (first [exact Hp | apply normal_density_pos; first [exact H2|now apply sqrt_lt_R0]]).
  ring.
Qed.
Lemma dstayer_density_pos o l : dstayer_ok nl nk p o -> (l < nl)%nat -> 0 < dstayer_density p o l.
Proof.
  intros H Hl. destruct (dstayer_vars_pos o l H Hl) as (V1 & V3 & V4).
  destruct H as (_ & H). destruct (H l Hl) as (Hp & _ & H2 & _).
  unfold dstayer_density.
  repeat (apply Rmult_lt_0_compat;
          [|apply normal_density_pos; first [exact H2|now apply sqrt_lt_R0]]).
  apply normal_density_pos; now apply sqrt_lt_R0.
Qed.

(* The E-step of the movers and of the stayers. *)
Variable data : list dobs.
Hypothesis nl_pos : (0 < nl)%nat.

Lemma dlp_movers_spec : (forall o, In o data -> dmover_ok nl nk p o) ->
  exists lp, dlp_movers nl nk p data = Ok lp
    /\ mean_lse lp = Ok (dmovers_loglik nl nk p data)
    /\ posteriors lp = Ok (map (fun o => map (mover_posterior nl nk p o) (range nl)) data).
Proof.
  intros H. exists (tab nl data mover_entry). split; [|split].
  - apply fill_movers; [intros; apply mover_lp_spec; auto|].
    intros o Ho. destruct (H o Ho) as (? & ? & _). now split.
  - apply (mean_lse_tab nl data (fun o => dpk1 p (dg1 o + nk * dg4 o)%nat) (dmover_density p)
             mover_entry nl_pos).
    intros; apply exp_mover_entry; auto.
  - apply (posteriors_tab nl data (fun o => dpk1 p (dg1 o + nk * dg4 o)%nat) (dmover_density p)
             mover_entry nl_pos).
    intros; apply exp_mover_entry; auto.
Qed.
Lemma dlp_stayers_spec : (forall o, In o data -> dstayer_ok nl nk p o) ->
  exists st lp, dlp_stable nl nk p data = Ok st /\ dlp_stayers nl nk p st data = Ok lp
    /\ mean_lse lp = Ok (dstayers_loglik nl p data)
    /\ posteriors lp = Ok (map (fun o => map (stayer_posterior nl p o) (range nl)) data).
Proof.
  intros H. exists (tab nl data stayer_entry_s),
    (tab nl data (fun o l => stayer_entry o l + stayer_entry_s o l)).
  split; [|split; [|split]].
  - apply (fill_stayers nl data nk (stayer_stable p)); [intros; apply stayer_stable_spec; auto|].
    intros o Ho. apply (H o Ho).
  - unfold dlp_stayers.
    rewrite (fill_stayers nl data nk (stayer_lp p) stayer_entry).
    + cbn [bind]. now rewrite map2_tab.
    + intros; apply stayer_lp_spec; auto.
    + intros o Ho. apply (H o Ho).
  - apply (mean_lse_tab nl data (fun o => dpk0 p (dg1 o)) (dstayer_density p) _ nl_pos).
    intros; apply exp_stayer_entry; auto.
  - apply (posteriors_tab nl data (fun o => dpk0 p (dg1 o)) (dstayer_density p) _ nl_pos).
    intros; apply exp_stayer_entry; auto.
Qed.
End Rows.
